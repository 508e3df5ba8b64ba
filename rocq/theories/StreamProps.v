(** Properties of buffered streams (C114-C117). *)

From Coq Require Import List Arith ZArith NArith Bool Lia.
Import ListNotations.
From Verif Require Import StreamModel StreamSpec StreamProofs StreamProofs2 StreamProofs3 StreamProofs4.
Local Open Scope N_scope.

(** The answers of a history of calls on a file just opened, and what the file
    holds once the stream is closed. *)
Definition answers (d : list N) (n : Z) (c : list nat) (l : list sop) : list out :=
  snd (run (open_stream d n false c) l).
Definition left_on_disk (d : list N) (n : Z) (c : list nat) (l : list sop) : list N :=
  close_stream (fst (run (open_stream d n false c) l)).

(** The same for a plain file with one position. *)
Definition plain_answers (d : list N) (l : list sop) : list out := snd (arun (fresh d) l).
Definition plain_contents (d : list N) (l : list sop) : list N := cont (fst (arun (fresh d) l)).

(** ** C114 *)

(** Whatever the file, the buffer's size (eight bytes or more) and however few
    bytes each read(2) delivers, a history of calls that keeps to the discipline
    gets the answers a plain file with one position would give, and closing the
    stream leaves the file with the contents the plain file has. *)
Theorem C114_plain_file : forall d n c l,
  (8 <= n)%Z -> disciplined (fresh d) l ->
  answers d n c l = plain_answers d l /\ left_on_disk d n c l = plain_contents d l.
Proof.
  intros d n c l Hn H. unfold answers, left_on_disk, plain_answers, plain_contents.
  destruct (run_ok l (fresh d) (open_stream d n false c) (R_fresh d n c Hn) H) as [A B].
  split; [exact A|]. apply close_ok. exact B.
Qed.

Print Assumptions C114_plain_file.

Definition demo : list sop :=
  [Read 3; SetPos 1; Probe; StartWrite (-1); Write [9; 8; 7; 6; 5; 4; 3; 2; 1]; GetPos;
   StartRead 10; Read 2; ReadAt 4 0; StartWrite 2; Write [100]; WriteAt [1; 2; 3; 4] 6;
   Flush; DirectWrite [50; 51]; SetPos 0; DirectRead 4; EndPosSlow; ReadBlock 5 6].

Example C114_plain_file_case :
  disciplined (fresh [10; 11; 12; 13; 14; 15; 16; 17; 18; 19; 20; 21]) demo /\
  answers [10; 11; 12; 13; 14; 15; 16; 17; 18; 19; 20; 21] 8 [0; 2; 1; 0]%nat demo =
    [OBytes [10; 11; 12]; OInt 1; OBytes [11]; OVoid; OInt 9; OInt 21; OVoid; OBytes [20; 21];
     OBytes [10; 11; 12; 13]; OVoid; OInt 1; OInt 4; OVoid; OInt 2; OInt 0;
     OBytes [10; 11; 100; 13]; OInt 21; OBytes [15; 1; 2; 3; 4; 50]] /\
  left_on_disk [10; 11; 12; 13; 14; 15; 16; 17; 18; 19; 20; 21] 8 [0; 2; 1; 0]%nat demo =
    [10; 11; 100; 13; 14; 15; 1; 2; 3; 4; 50; 51; 9; 8; 7; 6; 5; 4; 3; 2; 1].
Proof.
  split; [|split; reflexivity].
  vm_compute.
  repeat match goal with |- _ /\ _ => split | |- _ -> _ => intro end;
    try discriminate; try lia; auto; intuition discriminate.
Qed.

(** The answers and the file do not depend on the buffer's size or on how the
    reads are cut up. *)
Theorem C114_any_buffer : forall d n c n' c' l,
  (8 <= n)%Z -> (8 <= n')%Z -> disciplined (fresh d) l ->
  answers d n c l = answers d n' c' l /\ left_on_disk d n c l = left_on_disk d n' c' l.
Proof.
  intros d n c n' c' l Hn Hn' H.
  destruct (C114_plain_file d n c l Hn H) as [-> ->].
  destruct (C114_plain_file d n' c' l Hn' H) as [-> ->]. auto.
Qed.

Print Assumptions C114_any_buffer.

Example C114_any_buffer_case :
  answers [10; 11; 12; 13; 14; 15; 16; 17; 18; 19; 20; 21] 8 [0; 0; 0; 0; 0]%nat demo =
  answers [10; 11; 12; 13; 14; 15; 16; 17; 18; 19; 20; 21] 4096 [] demo.
Proof. reflexivity. Qed.

(** What was written is read back: bytes written at a place inside the file, and
    then anything up to a seek to that place in either direction, come back. *)
Theorem C114_read_back : forall d n c p bs,
  (8 <= n)%Z -> (p <= length d)%nat ->
  answers d n c [StartWrite (Z.of_nat p); Write bs; StartRead (Z.of_nat p); Read (length bs)]
  = [OVoid; OInt (Z.of_nat (length bs)); OVoid; OBytes bs].
Proof.
  intros d n c p bs Hn Hp.
  assert (L : (p + length bs <= length (put_at d p bs))%nat).
  { unfold put_at. destruct bs; [simpl; lia|]. rewrite map_length, seq_length. lia. }
  destruct (C114_plain_file d n c
    [StartWrite (Z.of_nat p); Write bs; StartRead (Z.of_nat p); Read (length bs)] Hn) as [-> _].
  { simpl. unfold size. simpl. rewrite Nat2Z.id.
    assert (E : (Z.of_nat p <? 0)%Z = false) by (apply Z.ltb_ge; lia). rewrite E.
    simpl. repeat split; try lia; discriminate. }
  unfold plain_answers. simpl. unfold size. simpl.
  assert (E : (Z.of_nat p <? 0)%Z = false) by (apply Z.ltb_ge; lia). rewrite E.
  cbn [fst snd goto pos cont am to_write to_read writing flushed stale]. rewrite Nat2Z.id.
  apply Nat.leb_le in L. rewrite L. cbn [snd fst].
  do 5 f_equal.
  unfold bytes_at. apply (nth_ext _ _ 0 0).
  { rewrite map_length, seq_length. reflexivity. }
  intros i Hi. rewrite map_length, seq_length in Hi.
  erewrite nth_indep with (d' := nth (p + 0) (put_at d p bs) 0) by (rewrite map_length, seq_length; exact Hi).
  rewrite map_nth with (f := fun i => nth (p + i) (put_at d p bs) 0).
  rewrite seq_nth by exact Hi. simpl.
  unfold put_at. destruct bs as [|b bs]; [simpl in Hi; lia|].
  set (w := b :: bs) in *. clearbody w.
  erewrite nth_indep with (d' := (fun i => if ((p <=? i) && (i <? p + length w))%nat then nth (i - p) w 0 else nth i d 0) 0%nat)
    by (rewrite map_length, seq_length; lia).
  rewrite map_nth with (f := fun i => if ((p <=? i) && (i <? p + length w))%nat then nth (i - p) w 0 else nth i d 0).
  rewrite seq_nth by lia. simpl.
  destruct (Nat.leb_spec p (p + i)); [|lia]. destruct (Nat.ltb_spec (p + i) (p + length w)); [|lia].
  simpl. f_equal. lia.
Qed.

Print Assumptions C114_read_back.

Example C114_read_back_case :
  answers [1; 2; 3] 8 [0]%nat [StartWrite 2; Write [7; 8; 9]; StartRead 2; Read 3]
  = [OVoid; OInt 3; OVoid; OBytes [7; 8; 9]].
Proof. reflexivity. Qed.

(** ** C115: without the discipline *)

(** Reading one byte, turning to write (kno_writebuf) and writing: the byte goes
    after the last byte that was read ahead, not at the position. *)
Theorem C115_turn_refuted : exists d n l,
  answers d n [] l = plain_answers d l /\
  left_on_disk d n [] l <> plain_contents d l.
Proof. exists [1; 2; 3; 4], 8%Z, [Read 1; WriteBuf; Write [9]]. split; [reflexivity|discriminate]. Qed.

Print Assumptions C115_turn_refuted.

(** Reading one byte and flushing moves the position past what was read
    ahead. *)
Theorem C115_flush_refuted : exists d n l,
  answers d n [] l <> plain_answers d l.
Proof. exists [1; 2; 3; 4], 8%Z, [Read 1; Flush; GetPos]. discriminate. Qed.

Print Assumptions C115_flush_refuted.

(** Changing the buffer's size after a read moves the position too. *)
Theorem C115_setbuf_refuted : exists d n l,
  answers d n [] l <> plain_answers d l.
Proof. exists [1; 2; 3; 4], 8%Z, [Read 1; SetBuf 16; Read 1]. discriminate. Qed.

Print Assumptions C115_setbuf_refuted.

(** kno_endpos answers the end but, when the whole file has been read ahead,
    stays where it was. *)
Theorem C115_endpos_refuted : exists d n,
  answers d n [] [Read 1; EndPos; GetPos] =
    [OBytes (firstn 1 d); OInt (Z.of_nat (length d)); OInt 1] /\ (1 < length d)%nat.
Proof. exists [1; 2; 3; 4], 8%Z. split; [reflexivity|simpl; lia]. Qed.

Print Assumptions C115_endpos_refuted.

(** After a direct write extended the file, kno_endpos at the old end answers
    the old size, and appending there destroys what was written. *)
Theorem C115_append_refuted : exists d n,
  answers d n [] [StartWrite (-1); DirectWrite [5; 6]; SetPos 4; StartWrite (-1); Write [7]] =
    [OVoid; OInt 2; OInt 4; OVoid; OInt 1] /\
  left_on_disk d n [] [StartWrite (-1); DirectWrite [5; 6]; SetPos 4; StartWrite (-1); Write [7]]
    = d ++ [7; 6].
Proof. exists [1; 2; 3; 4], 8%Z. split; reflexivity. Qed.

Print Assumptions C115_append_refuted.

(** kno_read_byte_at does not see what was written and not yet flushed. *)
Theorem C115_read_at_refuted : exists d n,
  answers d n [] [StartWrite 0; Write [9]; ReadAt 1 0] = [OVoid; OInt 1; OBytes (firstn 1 d)] /\
  plain_answers d [StartWrite 0; Write [9]; ReadAt 1 0] = [OVoid; OInt 1; OBytes [9]] /\
  firstn 1 d <> [9].
Proof. exists [1; 2; 3; 4], 8%Z. repeat split. discriminate. Qed.

Print Assumptions C115_read_at_refuted.

(** A direct write overtakes what is still buffered: bytes written first end up
    after bytes written second, over the file's own. *)
Theorem C115_direct_write_refuted : exists d n,
  answers d n [] [StartWrite 0; Write [7]; DirectWrite [8; 9]] = [OVoid; OInt 1; OInt 2] /\
  left_on_disk d n [] [StartWrite 0; Write [7]; DirectWrite [8; 9]] = [8; 9; 7; 4] /\
  plain_contents d [StartWrite 0; Write [7]; DirectWrite [8; 9]] = [7; 8; 9; 4].
Proof. exists [1; 2; 3; 4], 8%Z. repeat split. Qed.

Print Assumptions C115_direct_write_refuted.

(** A direct read after a buffered one skips what was read ahead. *)
Theorem C115_direct_read_refuted : exists d n,
  answers d n [] [Read 1; DirectRead 1] = [OBytes [0]; OBytes [8]] /\
  plain_answers d [Read 1; DirectRead 1] = [OBytes [0]; OBytes [1]].
Proof. exists [0; 1; 2; 3; 4; 5; 6; 7; 8; 9; 10; 11], 8%Z. split; reflexivity. Qed.

Print Assumptions C115_direct_read_refuted.

(** Going back after a direct read finds the wrong bytes: the buffer is taken to
    hold the bytes just before the new position. *)
Theorem C115_back_refuted : exists d n,
  answers d n [] [Read 8; DirectRead 2; SetPos 3; Read 1] =
    [OBytes (firstn 8 d); OBytes [8; 9]; OInt 3; OBytes [1]] /\ nth 3 d 0 = 3.
Proof. exists [0; 1; 2; 3; 4; 5; 6; 7; 8; 9; 10; 11], 8%Z. split; reflexivity. Qed.

Print Assumptions C115_back_refuted.

(** A direct read that goes past the end of the file never returns. *)
Theorem C115_past_end_refuted : exists d n,
  answers d n [] [DirectRead 3] = [OHang].
Proof. exists [1; 2], 8%Z. reflexivity. Qed.

Print Assumptions C115_past_end_refuted.

(** The exported and the inline kno_start_read disagree about negative
    positions. *)
Theorem C115_start_read_refuted : exists d n,
  answers d n [] [StartRead (-2); Read 1] <> answers d n [] [StartReadSlow (-2); Read 1].
Proof. exists [1; 2; 3; 4], 8%Z. discriminate. Qed.

Print Assumptions C115_start_read_refuted.

(** Bytes written past the end leave a gap that cannot be read as a block until
    the stream is flushed. *)
Theorem C115_gap_refuted : exists d n,
  answers d n [] [StartWrite 5; Write [9]; ReadBlock 3 1] = [OVoid; OInt 1; OErr] /\
  plain_answers d [StartWrite 5; Write [9]; ReadBlock 3 1] = [OVoid; OInt 1; OBytes [0]].
Proof. exists [1; 2], 8%Z. split; reflexivity. Qed.

Print Assumptions C115_gap_refuted.

(** Reading a block turns a stream that is being written round, so the next
    write is refused. *)
Theorem C115_block_refuted : exists d n,
  answers d n [] [StartWrite 0; Write [9]; ReadBlock 0 2; Write [8]]
  = [OVoid; OInt 1; OBytes [9; 2]; OErr].
Proof. exists [1; 2; 3; 4], 8%Z. reflexivity. Qed.

Print Assumptions C115_block_refuted.

(** ** C116 *)

Definition any_answers (d : list N) (n : Z) (readonly : bool) (c : list nat) (l : list sop) : list out :=
  snd (run (open_stream d n readonly c) l).
Definition any_left (d : list N) (n : Z) (readonly : bool) (c : list nat) (l : list sop) : list N :=
  close_stream (fst (run (open_stream d n readonly c) l)).

Lemma open_sane : forall d n r c, sane (open_stream d n r c).
Proof. intros d n r c X. discriminate. Qed.

(** A file opened read-only is never changed, whatever calls are made and at
    every moment: both on disk and after closing. *)
Theorem C116_read_only : forall d n c l,
  disk (fst (run (open_stream d n true c) l)) = d /\ any_left d n true c l = d.
Proof.
  intros d n c l. assert (H : ro_ok d (open_stream d n true c)) by (repeat split).
  pose proof (run_ro l d _ H) as K. unfold any_left.
  set (s := fst (run (open_stream d n true c) l)) in *. clearbody s.
  destruct K as (A & B & C). split; auto. unfold close_stream. rewrite B. exact C.
Qed.

Print Assumptions C116_read_only.

Example C116_read_only_case :
  any_answers [1; 2; 3] 8 true [] [WriteBuf; Write [9]; DirectWrite [8]; StartWrite 0; Read 2] =
    [OVoid; OErr; OErr; OVoid; OBytes [1; 2]] /\
  any_left [1; 2; 3] 8 true [] [WriteBuf; Write [9]; DirectWrite [8]; StartWrite 0; Read 2] = [1; 2; 3].
Proof. split; reflexivity. Qed.

(** Only the calls that write change what the file will hold: after any history,
    further calls of the other kinds — seeks, turns, reads, flushes, changes of
    the buffer's size, in any order and under no discipline — leave the contents
    after closing as they would have been. *)
Theorem C116_only_writes : forall d n r c l m,
  Forall (fun o => match o with Write _ | WriteAt _ _ | DirectWrite _ => False | _ => True end) m ->
  any_left d n r c (l ++ m) = any_left d n r c l.
Proof.
  intros d n r c l m H. unfold any_left. rewrite run_app.
  pose proof (run_sane l _ (open_sane d n r c)) as A.
  set (s := fst (run (open_stream d n r c) l)) in *. clearbody s.
  assert (W : forallb (fun o => negb (writes o)) m = true).
  { clear -H. induction H as [|o m Ho H IH]; auto. simpl. rewrite IH.
    destruct o; try contradiction; reflexivity. }
  destruct (run_keeps m s A W) as (B & C & _).
  rewrite !close_content by assumption. exact C.
Qed.

Print Assumptions C116_only_writes.

Example C116_only_writes_case :
  any_left [1; 2; 3; 4] 8 false [] [Read 1; WriteBuf; Write [9]] = [1; 2; 3; 4; 9] /\
  any_left [1; 2; 3; 4] 8 false []
    ([Read 1; WriteBuf; Write [9]] ++ [SetPos 2; ReadBuf; Read 2; SetBuf 16; WriteBuf; EndPos; DirectRead 1])
  = [1; 2; 3; 4; 9].
Proof. split; reflexivity. Qed.

(** kno_write_4bytes_at on a read-only stream answers as if it had written. *)
Theorem C116_silent_refuted : exists d n bs,
  any_answers d n true [] [WriteAt bs 0] = [OInt (Z.of_nat (length bs))] /\
  any_left d n true [] [WriteAt bs 0] = d /\ firstn (length bs) d <> bs.
Proof. exists [1; 2; 3; 4], 8%Z, [9; 9; 9; 9]. repeat split. discriminate. Qed.

Print Assumptions C116_silent_refuted.

(** ** C117 *)

(** Under no discipline at all, and whatever the reads deliver, the bytes in the
    buffer never exceed the memory allocated for it. *)
Theorem C117_room : forall d n r c l,
  (0 < n)%Z -> Forall (fun o => match o with SetBuf k => (0 < k)%Z | _ => True end) l ->
  let s := fst (run (open_stream d n r c) l) in
  (Z.of_nat (length (buf s)) <= blen s)%Z /\ (wrt s = false -> (pt s <= length (buf s))%nat).
Proof.
  intros d n r c l Hn H.
  assert (F : fits (open_stream d n r c)) by (split; simpl; auto; split; simpl; lia).
  destruct (run_fits l _ (open_sane d n r c) F) as [A _].
  { clear -H. induction H as [|o l Ho H IH]; constructor; auto. }
  simpl. set (s := fst (run (open_stream d n r c) l)) in *. clearbody s.
  destruct A as [A B]. destruct (wrt s); split; try lia; discriminate.
Qed.

Print Assumptions C117_room.

Example C117_room_case :
  let s := fst (run (open_stream [1; 2; 3; 4] 2 false []) [Read 3; SetPos 1; Read 3]) in
  length (buf s) = 4%nat /\ blen s = 4%Z.
Proof. split; reflexivity. Qed.

(** And no call stores outside the buffer, other than kno_write_4bytes_at,
    kno_write_8bytes_at and kno_read_ints. *)
Theorem C117_stores_partial : forall d n r c l i o,
  (0 < n)%Z -> Forall (fun o => match o with SetBuf k => (0 < k)%Z | _ => True end) l ->
  nth_error l i = Some o ->
  match o with WriteAt _ _ | ReadInts _ => False | _ => True end ->
  nth_error (any_answers d n r c l) i <> Some OFault.
Proof.
  intros d n r c l i o Hn H Ho G.
  assert (F : fits (open_stream d n r c)) by (split; simpl; auto; split; simpl; lia).
  destruct (run_fits l _ (open_sane d n r c) F) as [_ A].
  { clear -H. induction H as [|o l Ho H IH]; constructor; auto. }
  apply (A i o); auto. destruct o; try contradiction; reflexivity.
Qed.

Print Assumptions C117_stores_partial.

Example C117_stores_case :
  any_answers [1; 2] 2 false [] [StartWrite 2; Write [3; 4; 5; 6; 7]; Write [8]; StartRead 0; Read 8] =
    [OVoid; OInt 5; OInt 1; OVoid; OBytes [1; 2; 3; 4; 5; 6; 7; 8]].
Proof. reflexivity. Qed.

(** kno_write_4bytes_at with the buffer nearly full stores past its end. *)
Theorem C117_write_at_refuted : exists d n,
  any_answers d n false [] [StartWrite 0; Write [1; 2; 3; 4; 5; 6]; WriteAt [7; 8; 9; 10] 6]
  = [OVoid; OInt 6; OFault].
Proof. exists [], 8%Z. reflexivity. Qed.

Print Assumptions C117_write_at_refuted.

(** kno_read_ints stores past the end of the caller's array as soon as one
    read(2) delivers less than was asked for. *)
Theorem C117_read_ints_refuted : exists d n c,
  any_answers d n false c [ReadInts 2] = [OFault] /\
  any_answers d n false [] [ReadInts 2] = [OBytes d].
Proof. exists [1; 2; 3; 4; 5; 6; 7; 8], 8%Z, [3]%nat. split; reflexivity. Qed.

Print Assumptions C117_read_ints_refuted.

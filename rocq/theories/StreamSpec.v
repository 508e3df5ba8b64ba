(** A plain file with one position, and the discipline under which a buffered
    stream behaves like one.  Nothing here looks at the buffer: the state is
    the file's contents, the position, which way the stream is turned, whether
    something may be buffered, and whether the cached size may be out of
    date. *)

From Coq Require Import List Arith ZArith NArith Bool.
Import ListNotations.
From Verif Require Import StreamModel.

(** Which way the stream is turned, as far as its user can know: reading with
    nothing read yet since the turn, reading, writing with nothing written since
    the turn or the last flush, writing, or (after a block was read while
    something was being written) either reading with nothing buffered or
    writing. *)
Inductive mode := RClean | RBuf | WClean | WBuf | Unk.

(** [cont]: the file's contents, counting what was written through the stream;
    [pos]: the position; [stale]: the file was extended by a direct write, so
    the size remembered at opening time is out of date. *)
Record plain := MkP { cont : list N; pos : nat; am : mode; stale : bool }.

Definition size (p : plain) : nat := length p.(cont).

Definition reading (m : mode) := match m with RClean | RBuf => true | _ => false end.
Definition writing (m : mode) := match m with WClean | WBuf => true | _ => false end.

Definition to_read (m : mode) := match m with RClean | RBuf => m | _ => RClean end.
Definition to_write (m : mode) :=
  match m with RClean | RBuf | WClean => WClean | _ => WBuf end.
Definition flushed (m : mode) :=
  match m with RBuf => RClean | WBuf => WClean | _ => m end.

(** Bytes [o..o+n) of [l] are [bs]; stated byte by byte. *)
Definition bytes_at (l : list N) (o n : nat) : list N :=
  map (fun i => nth (o + i) l 0%N) (seq 0 n).

(** [l] with the bytes from [o] on replaced by [bs], zeros filling a gap;
    stated byte by byte. *)
Definition put_at (l : list N) (o : nat) (bs : list N) : list N :=
  match bs with
  | [] => l
  | _ => map (fun i => if (o <=? i) && (i <? o + length bs) then nth (i - o) bs 0%N
                       else nth i l 0%N)
             (seq 0 (Nat.max (length l) (o + length bs)))
  end.

Definition goto (p : plain) (n : nat) (m : mode) := MkP p.(cont) n m p.(stale).

(** Moving to [z]: refused when negative. *)
Definition aseek (p : plain) (z : Z) : plain * out :=
  if (z <? 0)%Z then (p, OErr) else (goto p (Z.to_nat z) p.(am), OInt z).

Definition astep (p : plain) (o : sop) : plain * out :=
  match o with
  | GetPos => (p, OInt (Z.of_nat p.(pos)))
  | SetPos z | SetPosSlow z => aseek p z
  | MovePos d => aseek p (Z.of_nat p.(pos) + d)
  | EndPos => (goto p (size p) p.(am), OInt (Z.of_nat (size p)))
  | EndPosSlow => (MkP p.(cont) (size p) (flushed p.(am)) false, OInt (Z.of_nat (size p)))
  | StartRead z =>
    (goto p (if (z <? 0)%Z then Z.to_nat (Z.of_nat (size p) + z) else Z.to_nat z)
          (to_read p.(am)), OVoid)
  | StartReadSlow z =>
    (goto p (if (z <? 0)%Z then size p else Z.to_nat z) (to_read p.(am)), OVoid)
  | StartWrite z =>
    (goto p (if (z <? 0)%Z then size p else Z.to_nat z) (to_write p.(am)), OVoid)
  | ReadBuf => (goto p p.(pos) (to_read p.(am)), OVoid)
  | WriteBuf => (goto p p.(pos) (to_write p.(am)), OVoid)
  | Read n =>
    if writing p.(am) then (p, OErr)
    else if p.(pos) + n <=? size p
    then (goto p (p.(pos) + n) RBuf, OBytes (bytes_at p.(cont) p.(pos) n))
    else (goto p p.(pos) RBuf, OErr)
  | Probe =>
    if writing p.(am) then (p, OErr)
    else if p.(pos) <? size p
    then (goto p p.(pos) RBuf, OBytes (bytes_at p.(cont) p.(pos) 1))
    else (goto p p.(pos) RBuf, OErr)
  | Write bs =>
    if writing p.(am)
    then (MkP (put_at p.(cont) p.(pos) bs) (p.(pos) + length bs) WBuf p.(stale),
          OInt (Z.of_nat (length bs)))
    else (p, OErr)
  | Flush => (goto p p.(pos) (flushed p.(am)), OVoid)
  | SetBuf n => (goto p p.(pos) (flushed p.(am)), OInt n)
  | ReadBlock o n =>
    (goto p p.(pos)
       (match p.(am) with
        | WBuf => Unk
        | WClean => if p.(pos) <? o + n then RClean else WClean
        | m => m
        end),
     if (n =? 0) || (o + n <=? size p) then OBytes (bytes_at p.(cont) o n) else OErr)
  | ReadAt n z => (p, OBytes (bytes_at p.(cont) (Z.to_nat z) n))
  | WriteAt bs z =>
    let o := if (0 <=? z)%Z then Z.to_nat z else p.(pos) in
    (MkP (put_at p.(cont) o bs) (o + length bs) WClean p.(stale), OInt (Z.of_nat (length bs)))
  | DirectWrite bs =>
    (MkP (put_at p.(cont) p.(pos) bs) (p.(pos) + length bs) WClean
         (p.(stale) || (size p <? p.(pos) + length bs)),
     OInt (Z.of_nat (length bs)))
  | DirectRead n =>
    (goto p (p.(pos) + n) RClean, OBytes (bytes_at p.(cont) p.(pos) n))
  | ReadInts n =>
    (goto p (p.(pos) + 4 * n) RClean, OBytes (bytes_at p.(cont) p.(pos) (4 * n)))
  end.

(** The discipline.  Positions never lie beyond the end of the file; turning
    from reading to writing names the position; nothing is flushed while
    reading; [kno_endpos] is not used while reading, nor after a direct write
    extended the file; direct transfers happen with nothing buffered; block
    reads in the middle of writing are followed by a turn before the next
    transfer; words are read directly only when read(2) delivers all of them at
    once, which no user can see, so not at all here. *)
Definition allowed (p : plain) (o : sop) : Prop :=
  match o with
  | GetPos | EndPosSlow | ReadBuf | ReadBlock _ _ => True
  | SetPos z | SetPosSlow z => (z <= Z.of_nat (size p))%Z
  | MovePos d => (Z.of_nat p.(pos) + d <= Z.of_nat (size p))%Z
  | EndPos => p.(am) <> RBuf /\ p.(stale) = false
  | StartRead z =>
    (z <= Z.of_nat (size p) /\ 0 <= Z.of_nat (size p) + z)%Z /\ ((z < 0)%Z -> p.(stale) = false)
  | StartReadSlow z =>
    (z <= Z.of_nat (size p))%Z /\ ((z < 0)%Z -> p.(am) <> RBuf /\ p.(stale) = false)
  | StartWrite z =>
    (z <= Z.of_nat (size p))%Z /\ ((z < 0)%Z -> p.(stale) = false)
  | WriteBuf | Flush => p.(am) <> RBuf
  | Read _ | Probe | Write _ => p.(am) <> Unk
  | SetBuf n => p.(am) <> RBuf /\ (8 <= n)%Z
  | ReadAt n z => p.(am) <> WBuf /\ p.(am) <> Unk /\ (0 <= z)%Z
                  /\ (z + Z.of_nat n <= Z.of_nat (size p))%Z
  | WriteAt bs z =>
    length bs <= 8 /\ (z <= Z.of_nat (size p))%Z
    /\ ((0 <= z)%Z -> p.(am) = WBuf \/ p.(am) = Unk -> z <> Z.of_nat p.(pos))
    /\ ((z < 0)%Z -> p.(am) = RClean \/ p.(am) = WClean)
  | DirectWrite _ => p.(am) = RClean \/ p.(am) = WClean
  | DirectRead n => p.(am) <> RBuf /\ p.(pos) + n <= size p
  | ReadInts _ => False
  end.

Fixpoint arun (p : plain) (l : list sop) : plain * list out :=
  match l with
  | [] => (p, [])
  | o :: l' =>
    let '(p1, r) := astep p o in
    let '(p2, rs) := arun p1 l' in
    (p2, r :: rs)
  end.

Fixpoint disciplined (p : plain) (l : list sop) : Prop :=
  match l with
  | [] => True
  | o :: l' => allowed p o /\ disciplined (fst (astep p o)) l'
  end.

(** A file just opened. *)
Definition fresh (d : list N) : plain := MkP d 0 RClean false.

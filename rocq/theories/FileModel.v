(** * Files: positional reads and writes.

    The part of POSIX the drivers use (pread, lseek+write, ftruncate, mmap with MAP_SHARED
    on an existing file).  A file is a size and its bytes. *)
From Verif Require Import BytesModel.
Local Open Scope N_scope.

Record file := { fsize : N; fbyte : N -> N }.

(** Two files with the same contents. *)
Definition feq (f g : file) : Prop := fsize f = fsize g /\ forall i, i < fsize f -> fbyte f i = fbyte g i.

(** Byte [i], 0 past the end (what a write beyond the end leaves in the gap). *)
Definition fget (f : file) (i : N) : N := if i <? fsize f then fbyte f i else 0.

(** write at a position (lseek and write, or pwrite). *)
Definition fwrite (f : file) (pos : N) (bs : bytes) : file :=
  match bs with
  | [] => f
  | _ => {| fsize := N.max (fsize f) (pos + blen bs);
            fbyte := fun i => if (pos <=? i) && (i <? pos + blen bs) then nth (N.to_nat (i - pos)) bs 0 else fget f i |}
  end.

(** pread of exactly [len] bytes; None: short read. *)
Definition fread (f : file) (pos : N) (len : nat) : option bytes :=
  if pos + N.of_nat len <=? fsize f
  then Some (map (fun k => fbyte f (pos + N.of_nat k)) (seq 0 len))
  else None.

(** ftruncate. *)
Definition ftruncate (f : file) (n : N) : file := {| fsize := n; fbyte := fget f |}.

Definition of_bytes (bs : bytes) : file := {| fsize := blen bs; fbyte := fun i => nth (N.to_nat i) bs 0 |}.

(** * Chunk references: the offset tables of pools and indexes.

    Source: /repo/include/kno/streams.h:361-480, /repo/src/storage/streams.c:1401-1440,
    /repo/src/drivers/bigpool.c:1566-1632, 1678-1712.  The platform is little-endian with
    mmap and pread. *)
From Verif Require Import BytesModel FileModel.
Local Open Scope N_scope.

(** streams.h:365 *)
Inductive offtype := B32 | B40 | B64.
(** streams.h:397-400, non-negative offsets and sizes. *)
Definition cref := (N * N)%type.
(** kno_chunk_ref_size, streams.h:403-409. *)
Definition ref_size (t : offtype) : N := match t with B32 | B40 => 8 | B64 => 12 end.

(** kno_convert_KNO_B40_ref, streams.h:465-479; on failure (-1) the callers ignore the
    result and use their initial words, 0 and 0. *)
Definition b40_words (r : cref) : N * N :=
  let (off, size) := r in
  if 0x1000000 <=? size then (0, 0)
  else if off <? 0x100000000 then (N.land off 0xFFFFFFFF, u32 size)
  else (N.land off 0xFFFFFFFF, u32 (N.lor size (N.land (N.shiftr off 8) 0xFF000000))).

(** What direct_write_offdata writes for one entry, bigpool.c:1682-1706. *)
Definition direct_bytes (t : offtype) (r : cref) : bytes :=
  match t with
  | B32 => put_4bytes (u32 (fst r)) ++ put_4bytes (u32 (snd r))
  | B40 => put_4bytes (fst (b40_words r)) ++ put_4bytes (snd (b40_words r))
  | B64 => put_8bytes (u64 (fst r)) ++ put_4bytes (u32 (snd r))
  end.
(** Its position: [256+oidoff*8] and [256+oidoff*12] in [unsigned int] arithmetic. *)
Definition direct_pos (t : offtype) (oidoff : N) : N := u32 (256 + u32 (oidoff * ref_size t)).
Definition direct_write (f : file) (t : offtype) (oidoff : N) (r : cref) : file :=
  fwrite f (direct_pos t oidoff) (direct_bytes t r).

(** A 32-bit word in memory, little-endian. *)
Definition le4 (w : N) : bytes :=
  [N.land w 0xFF; N.land (N.shiftr w 8) 0xFF; N.land (N.shiftr w 16) 0xFF; N.land (N.shiftr w 24) 0xFF].
Definition of_le4 (b : bytes) : N :=
  match b with [a; b; c; d] => a + b * 2^8 + c * 2^16 + d * 2^24 | _ => 0 end.
(** The words mmap_write_offdata stores (kno_net_order is the byte flip),
    bigpool.c:1590-1616. *)
Definition mmap_bytes (t : offtype) (r : cref) : bytes :=
  match t with
  | B32 => le4 (flip_word (u32 (fst r))) ++ le4 (flip_word (u32 (snd r)))
  | B40 => le4 (flip_word (fst (b40_words r))) ++ le4 (flip_word (snd (b40_words r)))
  | B64 => le4 (flip_word (u32 (N.shiftr (fst r) 32))) ++ le4 (flip_word (u32 (N.land (fst r) 0xFFFFFFFF)))
           ++ le4 (flip_word (u32 (snd r)))
  end.
(** [offdata[oidoff*2]], [offdata[oidoff*3]]: an [unsigned int] index of 4-byte words from
    byte 256 of the mapped file. *)
Definition mmap_pos (t : offtype) (oidoff : N) : N :=
  256 + 4 * u32 (oidoff * (ref_size t / 4)).
(** The mapping has 256+byte_length bytes, byte_length computed in [unsigned int] from
    max_off (bigpool.c:1578): a store beyond it is undefined (None).  [mapped]: the
    length of the mapping. *)
Definition mmap_length (t : offtype) (max_off : N) : N := 256 + u32 (ref_size t * u32 (max_off + 1)).
Definition mmap_write (f : file) (t : offtype) (max_off oidoff : N) (r : cref) : option file :=
  if (mmap_pos t oidoff + ref_size t <=? mmap_length t max_off) && (mmap_pos t oidoff + ref_size t <=? fsize f)
  then Some (fwrite f (mmap_pos t oidoff) (mmap_bytes t r)) else None.

(** Reading the words of an entry from the mapped table (loads and flips). *)
Definition word_at (f : file) (pos : N) : option N :=
  match fread f pos 4 with Some b => Some (flip_word (of_le4 b)) | None => None end.
Definition decode40 (w1 w2 : N) : cref := (N.lor (N.shiftl (N.land w2 0xFF000000) 8) w1, N.land w2 0x00FFFFFF).
(** kno_get_chunk_ref, streams.h:419-462, for the table that starts at byte 256 of the
    mapped file; [size_t] index. *)
Definition get_chunk_ref (f : file) (t : offtype) (offset offmax : N) : option cref :=
  if offmax <=? offset then Some (0, 0)
  else
    let pos := 256 + offset * ref_size t in
    match t with
    | B32 => match word_at f pos, word_at f (pos + 4) with
             | Some w1, Some w2 => Some (w1, w2) | _, _ => None end
    | B40 => match word_at f pos, word_at f (pos + 4) with
             | Some w1, Some w2 => Some (decode40 w1 w2) | _, _ => None end
    | B64 => match word_at f pos, word_at f (pos + 4), word_at f (pos + 8) with
             | Some w1, Some w2, Some w3 => Some (N.lor (N.shiftl w1 32) w2, w3) | _, _, _ => None end
    end.

(** Decoding the bytes of an entry, kno_fetch_chunk_ref, streams.c:1414-1440. *)
Definition decode_ref (t : offtype) (b : bytes) : option cref :=
  match read_4bytes b with
  | None => None
  | Some (w1, b1) =>
    match read_4bytes b1 with
    | None => None
    | Some (w2, b2) =>
      match t with
      | B32 => Some (w1, w2)
      | B40 => Some (decode40 w1 w2)
      | B64 => match read_4bytes b2 with None => None | Some (w3, _) => Some (N.lor (N.shiftl w1 32) w2, w3) end
      end
    end
  end.
(** kno_fetch_chunk_ref: [ref_off = offset*chunk_size] is an [unsigned int] product. *)
Definition fetch_chunk_ref (f : file) (base : N) (t : offtype) (offset : N) : option cref :=
  match fread f (base + u32 (offset * ref_size t)) (N.to_nat (ref_size t)) with
  | None => None
  | Some b => decode_ref t b
  end.

(** * Big pools: commit, fetch, rollback.

    Source: /repo/src/drivers/bigpool.c, /repo/src/storage/alcor.c (mmap version),
    /repo/src/storage/drivers.c:1154-1222, /repo/src/storage/pools.c:1165-1340 (the order
    of the phases).  Stored values are byte strings (what bigpool_write_value puts into
    the file); the value codec is the subject of the Dtype module. *)
From Verif Require Import BytesModel FileModel ChunkModel.
Local Open Scope N_scope.

(** The parts of struct KNO_BIGPOOL that do not change: offset type, capacity, whether it
    is an adjunct. *)
Record pool := { p_type : offtype; p_cap : N; p_adjunct : bool }.

(** The header and the offset table: bigpool.c:1210-1211
    [recovery_size = 256+(chunk_ref_size*cap)], [size_t] arithmetic. *)
Definition head_len (p : pool) : N := 256 + ref_size (p_type p) * p_cap p.

(** kno_read_4bytes_at, streams.c:1212-1235 (pread). *)
Definition read4_at (f : file) (pos : N) : option N :=
  match fread f pos 4 with Some b => match read_4bytes b with Some (w, _) => Some w | None => None end | None => None end.
(** kno_read_8bytes_at, streams.c:1269-1290. *)
Definition read8_at (f : file) (pos : N) : option N :=
  match fread f pos 8 with Some b => match read_8bytes b with Some (w, _) => Some w | None => None end | None => None end.

(** ** What a commit does to the disk

    [W]: a write to the pool file; [Sync]: fsync of the pool file; [SaveRB]: the rollback
    file is written, synced and moved into place (kno_save_head renames a finished
    ".part" file, so it appears in one step); [DropRB]: the rollback file is removed. *)
Inductive op := W (pos : N) (bs : bytes) | Sync | SaveRB | DropRB.

(** A commit is a program that looks at the file as it goes on; [cm_file] is the file as
    the process sees it, [cm_ops] what it has done (latest first). *)
Record cm := { cm_file : file; cm_ops : list op }.
Definition emit (c : cm) (pos : N) (bs : bytes) : cm :=
  {| cm_file := fwrite (cm_file c) pos bs; cm_ops := W pos bs :: cm_ops c |}.
Definition emit_op (c : cm) (o : op) : cm := {| cm_file := cm_file c; cm_ops := o :: cm_ops c |}.

(** get_maxpos, bigpool.c:202-214. *)
Definition maxpos (t : offtype) : N := match t with B32 => 2^32 | B40 => 2^40 | B64 => 2^63 end.

(** Outcome of a part of the commit: [Fail] leaves what has been written so far. *)
Inductive res (A : Type) := Ok (c : cm) (a : A) | Fail (c : cm).
Arguments Ok {A}. Arguments Fail {A}.

(** The loop of bigpool_storen, bigpool.c:1109-1150.  A change is the offset of an OID and
    the bytes of its value ([None] or []: the value is a constant that cannot be stored or
    bigpool_write_value has failed, n_bytes = 0).  Result: the save info and the load;
    [Fail]: file_format_overflow. *)
Fixpoint store_values (p : pool) (c : cm) (endpos load : N) (chs : list (N * option bytes))
  : res (list (N * cref) * N) :=
  match chs with
  | [] => Ok c ([], load)
  | (o, v) :: r =>
    let bs := match v with Some b => b | None => [] end in
    let n := blen bs in
    let c1 := match bs with [] => c | _ => emit c endpos bs end in
    let load1 := if negb (n =? 0) && p_adjunct p && (load <=? o) then o + 1 else load in
    if maxpos (p_type p) <=? endpos + n then Fail c1
    else
      let ref := if n =? 0 then (0, 0) else (endpos, n) in
      match store_values p c1 (endpos + n) load1 r with
      | Fail c2 => Fail c2
      | Ok c2 (info, l) => Ok c2 ((o, ref) :: info, l)
      end
  end.

(** direct_write_offdata, bigpool.c:1678-1712.  (mmap_write_offdata stores the same bytes
    at the same places, theorem C33_mmap_roundtrip_partial.) *)
Fixpoint write_offdata (p : pool) (c : cm) (info : list (N * cref)) : cm :=
  match info with
  | [] => c
  | (o, r) :: rest => write_offdata p (emit c (direct_pos (p_type p) o) (direct_bytes (p_type p) r)) rest
  end.

(** write_bigpool_slotids, bigpool.c:1447-1468: the slotids (their number and bytes) when
    there are new ones. *)
Definition write_slotids (c : cm) (s : option (N * bytes)) : cm :=
  match s with
  | None => c
  | Some (n, bs) =>
    let start := fsize (cm_file c) in
    let c := emit c start bs in
    let c := emit c 0x50 (put_4bytes n) in
    let c := emit c 0x54 (put_8bytes start) in
    emit c 0x5c (put_4bytes (blen bs))
  end.
(** bump_bigpool_nblocks, bigpool.c:1389-1402. *)
Definition bump_nblocks (c : cm) (n : N) : res unit :=
  match read8_at (cm_file c) 0x60 with
  | None => Fail c
  | Some b => Ok (emit c 0x60 (put_8bytes (u64 (b + n)))) tt
  end.
(** write_bigpool_metadata, bigpool.c:1470-1491. *)
Definition write_metadata (c : cm) (m : option bytes) : cm :=
  match m with
  | None => c
  | Some bs =>
    let start := fsize (cm_file c) in
    let c := emit c start bs in
    let c := emit c 0x24 (put_8bytes start) in
    emit c 0x2c (put_4bytes (fsize (cm_file c) - start))
  end.
(** write_bigpool_load, bigpool.c:1371-1387. *)
Definition write_load (c : cm) (new_load : N) : res unit :=
  match read4_at (cm_file c) 16 with
  | None => Fail c
  | Some l => if negb (new_load =? l) then Ok (emit c 16 (put_4bytes new_load)) tt else Ok c tt
  end.

Definition MAGIC : N := 0x0207100C.

(** What is to be committed: the changed objects, the slotids if new ones were added, the
    metadata if it was modified. *)
Record changes := { ch_values : list (N * option bytes); ch_slotids : option (N * bytes); ch_metadata : option bytes }.

(** update_bigpool, bigpool.c:1493-1511, and the end of bigpool_storen,
    bigpool.c:1175-1178, with head_stream = stream. *)
Definition update (p : pool) (c : cm) (info : list (N * cref)) (load : N) (ch : changes) : res unit :=
  let c := write_slotids c (ch_slotids ch) in
  match (match info with [] => Ok c tt | _ => bump_nblocks (write_offdata p c info) (N.of_nat (length info)) end) with
  | Fail c => Fail c
  | Ok c _ =>
    let c := write_metadata c (ch_metadata ch) in
    let c := emit_op c Sync in
    let c := emit c 248 (put_8bytes (fsize (cm_file c))) in
    match write_load c load with
    | Fail c => Fail c
    | Ok c _ => Ok (emit (emit_op c Sync) 0 (put_4bytes MAGIC)) tt
    end
  end.
(** bigpool_storen, bigpool.c:1066-1185.  [load]: bp->pool_load. *)
Definition storen (p : pool) (c : cm) (load : N) (ch : changes) : res unit :=
  match store_values p c (fsize (cm_file c)) load (ch_values ch) with
  | Fail c => Fail c
  | Ok c (info, load') => update p c info load' ch
  end.

(** The whole commit: start, write, (flush), cleanup, which closes (and syncs) the stream
    and then removes the rollback file.  When the write phase fails, the rollback phase
    (applying the rollback file) comes before the cleanup; see [failed_commit]. *)
Definition commit (p : pool) (f : file) (load : N) (ch : changes) : res unit :=
  match storen p (emit_op {| cm_file := f; cm_ops := [] |} SaveRB) load ch with
  | Fail c => Fail c
  | Ok c _ => Ok (emit_op (emit_op c Sync) DropRB) tt
  end.

(** ** Fetching

    bigpool_fetch and read_oid_value_at, bigpool.c:770-872, on a freshly opened pool
    (open_bigpool, bigpool.c:258-270: load from byte 16, limited to the capacity), without
    the offset cache. *)
Inductive fetched := FUnallocated | FEmpty | FValue (b : bytes) | FError.
Definition open_load (p : pool) (f : file) : option N :=
  match read4_at f 16 with None => None | Some l => Some (N.min l (p_cap p)) end.
Definition fetch (p : pool) (f : file) (o : N) : fetched :=
  match open_load p f with
  | None => FError
  | Some load =>
    if load <=? o then (if p_adjunct p then FEmpty else FUnallocated)
    else match fetch_chunk_ref f 256 (p_type p) o with
         | None => FError
         | Some (off, size) =>
           if off =? 0 then FEmpty
           else if size =? 0 then FEmpty
           else match fread f off (N.to_nat size) with Some b => FValue b | None => FError end
         end
  end.

(** A new pool, make_bigpool, bigpool.c:531-690 (without label, slotids, metadata):
    header, empty table.  The dates are 0. *)
Definition make_pool (p : pool) (hi lo flags load : N) : file :=
  let h := put_4bytes MAGIC ++ put_4bytes hi ++ put_4bytes lo ++ put_4bytes (p_cap p) ++ put_4bytes load ++ put_4bytes flags in
  {| fsize := head_len p; fbyte := fun i => nth (N.to_nat i) h 0 |}.

(** ** Rollback files, alcor.c *)

(** save_head, alcor.c:56-88: the first [len] bytes, then the size of the file. *)
Definition save_head (f : file) (len : N) : file :=
  fwrite {| fsize := len; fbyte := fget f |} len (put_8bytes (fsize f)).
(** apply_head and kno_apply_head, alcor.c:117-157, 293-330; None: malformed. *)
Definition apply_head (h f : file) : option file :=
  let len := fsize h - 8 in
  match read8_at h len with
  | None => None
  | Some trunc => if trunc <? len then None
                  else Some (ftruncate {| fsize := N.max (fsize f) len;
                                          fbyte := fun i => if i <? len then fget h i else fget f i |} trunc)
  end.

(** The rollback phase after a failed write phase, bigpool.c:1254-1258. *)
Definition failed_commit (p : pool) (f : file) (c : cm) : option file :=
  apply_head (save_head f (head_len p)) (cm_file c).

(** ** Two-phase commit

    bigpool.c:1217-1243: the header part goes to a copy of the header, to which
    kno_save_head has already appended the size and to which the end position is appended
    again. *)
Definition prepared (p : pool) (f newf : file) : file :=
  let h := save_head f (head_len p) in
  (* the header updates, at the same positions as in the pool file *)
  let h' := {| fsize := fsize h; fbyte := fun i => if i <? head_len p then fget newf i else fget h i |} in
  fwrite h' (fsize h') (put_8bytes (fsize newf)).
(** Phase write of a two-phase commit appends the data to the pool file; its header is
    still the old one. *)
Definition data_only (p : pool) (f newf : file) : file :=
  {| fsize := fsize newf; fbyte := fun i => if i <? head_len p then fget f i else fget newf i |}.

(** * File pools: storing and fetching.

    Source: /repo/src/drivers/filepool.c.  Values are byte strings (what kno_write_dtype
    puts into the file, at least one byte). *)
From Verif Require Import BytesModel FileModel ChunkModel PoolModel.
Local Open Scope N_scope.

Record fpool := { fp_cap : N; fp_adjunct : bool }.

(** The loop of file_pool_storen, filepool.c:401-424; [limit] 0xFFFFFFFF.  Result: the
    file, the position of each value, the load.  None: unallocated identifier or a file
    that would be too long (what has been appended stays there; nothing refers to it). *)
Fixpoint fp_append (p : fpool) (f : file) (endpos load : N) (vs : list (N * bytes)) : option (file * list (N * N) * N) :=
  match vs with
  | [] => Some (f, [], load)
  | (o, b) :: r =>
    let f1 := fwrite f endpos b in
    if negb (fp_adjunct p) && (load <=? o) then None
    else if 0xFFFFFFFF <? endpos + blen b then None
    else
      let load1 := if fp_adjunct p && (load <=? o) then o + 1 else load in
      match fp_append p f1 (endpos + blen b) load1 r with
      | None => None
      | Some (g, offs, l) => Some (g, (o, endpos) :: offs, l)
      end
  end.

(** write_file_pool_load, filepool.c:150-167.  A failure is only logged. *)
Definition fp_write_load (p : fpool) (f : file) (load : N) : file :=
  match read4_at f 16 with
  | None => f
  | Some l => if p.(fp_cap) <? l then f else if l =? load then f else fwrite f 16 (put_4bytes load)
  end.

(** The changed offsets one by one, filepool.c:449-458; [24+4*reloff] in [unsigned int]. *)
Fixpoint fp_write_offs (f : file) (offs : list (N * N)) : file :=
  match offs with
  | [] => f
  | (o, pos) :: r => fp_write_offs (fwrite f (u32 (24 + u32 (4 * o))) (put_4bytes (u32 pos))) r
  end.

(** The cached case, filepool.c:425-446: the table in memory with the changes, then all
    of it at position 24 (kno_write_ints). *)
Fixpoint fp_patch (tbl : list N) (offs : list (N * N)) : list N :=
  match offs with
  | [] => tbl
  | (o, pos) :: r => fp_patch (map (fun ix => if N.of_nat (fst ix) =? o then u32 pos else snd ix) (combine (seq 0 (length tbl)) tbl)) r
  end.
Definition fp_pad (tbl : list N) (load : N) : list N := tbl ++ repeat 0 (N.to_nat load - length tbl).
Definition put_words (ws : list N) : bytes := flat_map put_4bytes ws.

(** file_pool_storen, filepool.c:381-500.  [tbl]: pool_offdata (None: not cached).  The
    cached case ends with an ftruncate to [end-(4*(capacity+1))]; the file is left alone
    when that is negative (the call then fails and so does the commit: None). *)
Definition fp_storen (p : fpool) (f : file) (tbl : option (list N)) (load : N) (vs : list (N * bytes)) : option (file * N) :=
  match fp_append p f (fsize f) load vs with
  | None => None
  | Some (f1, offs, load') =>
    match tbl with
    | None => Some (fp_write_load p (fp_write_offs f1 offs) load', load')
    | Some t =>
      let f2 := fwrite f1 24 (put_words (fp_patch (fp_pad t load') offs)) in
      let f3 := fp_write_load p f2 load' in
      let cut := u32 (4 * u32 (fp_cap p + 1)) in
      if fsize f3 <? cut then None else Some (ftruncate f3 (fsize f3 - cut), load')
    end
  end.

(** file_pool_fetch, filepool.c:234-277: where the value would be read from. *)
Inductive fp_fetched := PUnallocated | PEmpty | PAt (pos : N) | PCorrupted | PError.
Definition fp_fetch (p : fpool) (f : file) (load o : N) : fp_fetched :=
  if load <=? o then (if fp_adjunct p then PEmpty else PUnallocated)
  else match read4_at f (24 + 4 * o) with
       | None => PError
       | Some pos => if pos =? 0 then PEmpty else if pos <? 24 + load * 4 then PCorrupted else PAt pos
       end.

(** kno_make_file_pool, filepool.c:755-800: header, table, metadata block of 40 bytes. *)
Definition make_file_pool (p : fpool) (magic hi lo load : N) : file :=
  let h := put_4bytes magic ++ put_4bytes hi ++ put_4bytes lo ++ put_4bytes (fp_cap p) ++ put_4bytes load ++ put_4bytes 0 in
  let m := put_4bytes 0xFFFFFFFE ++ put_4bytes 40 in
  {| fsize := 24 + 4 * fp_cap p + 40;
     fbyte := fun i => if i <? 24 + 4 * fp_cap p then nth (N.to_nat i) h 0 else nth (N.to_nat (i - (24 + 4 * fp_cap p))) m 0 |}.

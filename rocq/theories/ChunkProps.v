(** * Property C33: chunk references survive their on-disk formats. *)
From Verif Require Import BytesModel BytesProofs FileModel FileProofs ChunkModel ChunkProofs.
Local Open Scope N_scope.

(** ** Specification

    The range of each format, and the entries the 32-bit position arithmetic can
    reach. *)
Definition fits (t : offtype) (r : cref) : Prop :=
  match t with
  | B32 => fst r < 2^32 /\ snd r < 2^32
  | B40 => fst r < 2^40 /\ snd r < 2^24
  | B64 => fst r < 2^64 /\ snd r < 2^32
  end.
Definition reachable_entry (t : offtype) (i : N) : Prop := 256 + i * ref_size t < 2^32.

(** What either reader returns for entry [i] of a table of [n] entries. *)
Definition reads (f : file) (t : offtype) (n i : N) (r : option cref) : Prop :=
  get_chunk_ref f t i n = r /\ fetch_chunk_ref f 256 t i = r.

Lemma fits_in_range : forall t r, fits t r -> in_range t r.
Proof. intros [] r H; exact H. Qed.
Lemma direct_pos_eq : forall t i, reachable_entry t i -> direct_pos t i = 256 + i * ref_size t.
Proof.
  intros t i H. unfold reachable_entry in H. unfold direct_pos. rewrite (u32_id (i * _)) by lia. apply u32_id. assumption.
Qed.
Lemma fetch_eq : forall f t i, reachable_entry t i ->
  fetch_chunk_ref f 256 t i =
  match fread f (256 + i * ref_size t) (N.to_nat (ref_size t)) with Some b => decode_ref t b | None => None end.
Proof. intros f t i H. unfold reachable_entry in H. unfold fetch_chunk_ref. rewrite u32_id by lia. destruct (fread _ _ _); reflexivity. Qed.
Lemma reads_intro : forall f t n i b r, file_ok f -> i < n -> reachable_entry t i ->
  fread f (256 + i * ref_size t) (N.to_nat (ref_size t)) = b ->
  r = match b with Some b => decode_ref t b | None => None end -> reads f t n i r.
Proof.
  intros f t n i b r Hf Hi Hr Hb ->. split.
  - rewrite get_chunk_decode by assumption. now rewrite Hb.
  - rewrite fetch_eq by assumption. now rewrite Hb.
Qed.

(** ** Theorems *)

(** A reference written by the direct writer is what both readers return. *)
Theorem C33_direct_roundtrip_partial : forall f t n i r,
  file_ok f -> i < n -> reachable_entry t i -> fits t r ->
  reads (direct_write f t i r) t n i (Some r).
Proof.
  intros f t n i r Hf Hi Hr Hfit.
  eapply reads_intro; [apply fwrite_ok; [assumption|apply direct_ok]|assumption|assumption| |].
  - unfold direct_write. rewrite direct_pos_eq by assumption. rewrite <- (direct_len t r).
    apply fread_fwrite_same, direct_nonnil.
  - cbn beta iota. symmetry. apply decode_direct. now apply fits_in_range.
Qed.

(** The same for the writer that goes through the mapped table, which never stores
    outside the mapping. *)
Theorem C33_mmap_roundtrip_partial : forall f t n m i r,
  file_ok f -> i < n -> i <= m -> reachable_entry t (m + 1) -> 256 + (m + 1) * ref_size t <= fsize f -> fits t r ->
  exists f', mmap_write f t m i r = Some f' /\ reads f' t n i (Some r) /\ feq f' (direct_write f t i r).
Proof.
  intros f t n m i r Hf Hi Hm Hr Hs Hfit.
  assert (Ht : 0 < ref_size t) by (destruct t; reflexivity).
  assert (Hri : reachable_entry t i) by (unfold reachable_entry in *; nia).
  assert (Hp : mmap_pos t i = 256 + i * ref_size t).
  { unfold mmap_pos, reachable_entry in *. destruct t; cbn [ref_size] in *; change (8 / 4) with 2; change (12 / 4) with 3;
      rewrite u32_id by lia; lia. }
  assert (Hl : mmap_length t m = 256 + (m + 1) * ref_size t).
  { unfold mmap_length, reachable_entry in *. destruct t; cbn [ref_size] in *; rewrite !u32_id by (rewrite ?u32_id; lia); lia. }
  unfold mmap_write. rewrite Hp, Hl.
  destruct (N.leb_spec (256 + i * ref_size t + ref_size t) (256 + (m + 1) * ref_size t)); [|nia].
  destruct (N.leb_spec (256 + i * ref_size t + ref_size t) (fsize f)); [|nia].
  cbn [andb]. eexists. split; [reflexivity|].
  rewrite mmap_direct by (destruct t; cbn [fits] in Hfit; pows; lia).
  assert (E : fwrite f (256 + i * ref_size t) (direct_bytes t r) = direct_write f t i r)
    by (unfold direct_write; now rewrite direct_pos_eq by assumption).
  rewrite E. split; [now apply C33_direct_roundtrip_partial|apply feq_refl].
Qed.

(** Writing one entry leaves every other entry as it was. *)
Theorem C33_others_kept : forall f t n i j r x,
  file_ok f -> j < n -> reachable_entry t i -> reachable_entry t j -> i <> j ->
  reads f t n j (Some x) -> reads (direct_write f t i r) t n j (Some x).
Proof.
  intros f t n i j r x Hf Hj Hri Hrj Hne [R1 R2].
  assert (Ht : 0 < ref_size t) by (destruct t; reflexivity).
  rewrite fetch_eq in R2 by assumption.
  destruct (fread f (256 + j * ref_size t) (N.to_nat (ref_size t))) as [b|] eqn:E; [|discriminate].
  apply (reads_intro _ _ _ _ (Some b)); [apply fwrite_ok; [assumption|apply direct_ok]|assumption|assumption| |exact (eq_sym R2)].
  unfold direct_write. rewrite fread_fwrite_other; [exact E| |].
  - apply N.nlt_ge. intro C. rewrite <- fread_none in C. congruence.
  - rewrite direct_pos_eq, direct_blen, N2Nat.id by assumption. nia.
Qed.

(** Both readers agree on every file. *)
Theorem C33_readers_agree : forall f t n i, file_ok f -> i < n -> reachable_entry t i ->
  get_chunk_ref f t i n = fetch_chunk_ref f 256 t i.
Proof. intros. rewrite get_chunk_decode, fetch_eq by assumption. reflexivity. Qed.

(** The on-disk format: big-endian words. *)
Theorem C33_format : forall t off size, fits t (off, size) ->
  direct_bytes t (off, size) =
  match t with
  | B32 => put_4bytes off ++ put_4bytes size
  | B40 => put_4bytes (off mod 2^32) ++ put_4bytes (off / 2^32 * 2^24 + size)
  | B64 => put_8bytes off ++ put_4bytes size
  end.
Proof.
  intros t off size H. destruct t; cbn [fits fst snd] in H; destruct H as [Ho Hs]; cbn [direct_bytes fst snd].
  - now rewrite !u32_id by assumption.
  - rewrite b40_arith by assumption. reflexivity.
  - now rewrite u64_small, u32_id by assumption.
Qed.

(** A table of three entries in a file of 512 bytes. *)
Definition blank (n : N) : file := {| fsize := n; fbyte := fun _ => 0 |}.
Example C33_met :
  reads (direct_write (direct_write (blank 512) B40 2 (0xFFEEDDCCBB, 0x123456)) B40 1 (7, 9)) B40 3 2 (Some (0xFFEEDDCCBB, 0x123456)).
Proof. split; vm_compute; reflexivity. Qed.
Example C33_mmap_met : exists f', mmap_write (blank 512) B64 2 1 (0x1234567890, 77) = Some f' /\
  reads f' B64 3 1 (Some (0x1234567890, 77)).
Proof. eexists. split; [reflexivity|]. split; vm_compute; reflexivity. Qed.

(** ** Refutations *)

(** A value of 16 MB or more in the 40-bit format: the reference is silently stored as
    (0,0), which the pool reads as the empty choice. *)
Theorem C33_b40_size_refuted : exists r, fst r < 2^40 /\ snd r < 2^32 /\
  forall f n i, file_ok f -> i < n -> reachable_entry B40 i -> reads (direct_write f B40 i r) B40 n i (Some (0, 0)).
Proof.
  exists (5, 2^24). split; [reflexivity|]. split; [reflexivity|]. intros f n i Hf Hi Hr.
  assert (E : direct_write f B40 i (5, 2^24) = direct_write f B40 i (0, 0)) by reflexivity.
  rewrite E. apply C33_direct_roundtrip_partial; try assumption. split; reflexivity.
Qed.

(** Entry 2^29-32 of an 8-byte table: the position wraps and the writer overwrites the
    pool's header (its magic number) instead of the table. *)
Theorem C33_header_overwrite_refuted : exists i, i < 2^32 /\ forall f r, fits B32 r ->
  direct_write f B32 i r = fwrite f 0 (direct_bytes B32 r).
Proof. exists (2^29 - 32). split; [reflexivity|]. intros. unfold direct_write. reflexivity. Qed.

(** Entry 2^29 is entry 0, for the writer and for the reader that does not use the
    mapped table. *)
Theorem C33_index_wrap_refuted : exists i, i < 2^32 /\ i <> 0 /\ forall f n r x,
  file_ok f -> 0 < n -> fits B32 r -> reads f B32 n 0 (Some x) -> x <> r ->
  reads (direct_write f B32 i r) B32 n 0 (Some r) /\ fetch_chunk_ref f 256 B32 i = Some x.
Proof.
  exists (2^29). split; [reflexivity|]. split; [discriminate|]. intros f n r x Hf Hn Hfit [_ R2] Hx. split.
  - change (direct_write f B32 (2^29) r) with (direct_write f B32 0 r). apply C33_direct_roundtrip_partial; try assumption. reflexivity.
  - exact R2.
Qed.

Print Assumptions C33_direct_roundtrip_partial.
Print Assumptions C33_mmap_roundtrip_partial.
Print Assumptions C33_others_kept.
Print Assumptions C33_readers_agree.
Print Assumptions C33_format.
Print Assumptions C33_b40_size_refuted.
Print Assumptions C33_header_overwrite_refuted.
Print Assumptions C33_index_wrap_refuted.

(** References to chunks in the head of a file, in the three formats and below their limits: both
    ways of writing an entry (directly and through memory) give the same file, in which
    both ways of reading find what was written; the other entries stay. *)
Theorem C90_chunk_refs : forall f t n i r, file_ok f -> i < n -> reachable_entry t i -> fits t r ->
  reads (direct_write f t i r) t n i (Some r) /\
  (forall m, i <= m -> reachable_entry t (m + 1) -> 256 + (m + 1) * ref_size t <= fsize f ->
    exists f', mmap_write f t m i r = Some f' /\ reads f' t n i (Some r) /\ feq f' (direct_write f t i r)) /\
  (forall j x, j < n -> reachable_entry t j -> i <> j -> reads f t n j (Some x) ->
    reads (direct_write f t i r) t n j (Some x)).
Proof.
  intros f t n i r F I R T. split; [apply C33_direct_roundtrip_partial; assumption|]. split.
  - intros m M R1 S. apply C33_mmap_roundtrip_partial; assumption.
  - intros j x J RJ NE X. apply C33_others_kept; assumption.
Qed.
Example C90_chunk_refs_case :
  reads (direct_write (direct_write (blank 512) B40 2 (0xFFEEDDCCBB, 0x123456)) B40 1 (7, 9)) B40 3 2 (Some (0xFFEEDDCCBB, 0x123456)).
Proof. exact C33_met. Qed.
Print Assumptions C90_chunk_refs.

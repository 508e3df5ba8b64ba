(** * Lemmas about chunk references. *)
From Verif Require Import BytesModel BytesProofs FileModel FileProofs ChunkModel.
Local Open Scope N_scope.

Lemma le4_rev : forall w, le4 w = rev (put_4bytes w).
Proof. intro w. rewrite put_4bytes_div. unfold le4. arith_bits. reflexivity. Qed.
Lemma le4_flip : forall w, w < 2^32 -> le4 (flip_word w) = put_4bytes w.
Proof. intros w H. rewrite le4_rev, flip_word_bytes, rev_involutive by assumption. reflexivity. Qed.

Lemma word_read : forall b0 b1 b2 b3 r, b0 < 256 -> b1 < 256 -> b2 < 256 -> b3 < 256 ->
  read_4bytes (b0 :: b1 :: b2 :: b3 :: r) = Some (flip_word (of_le4 [b0; b1; b2; b3]), r).
Proof.
  intros. unfold read_4bytes. cbn [request_bytes length Nat.leb]. rewrite get4_arith by assumption. cbn [skipn].
  do 2 f_equal. unfold of_le4. fold (rev4 b0 b1 b2 b3). rewrite flip_word_rev by assumption. unfold rev4. lia.
Qed.

Lemma u32_lt : forall x, u32 x < 2^32.
Proof. intro. rewrite land_u32. apply N.mod_lt. discriminate. Qed.
Lemma u32_id : forall x, x < 2^32 -> u32 x = x.
Proof. intros. rewrite land_u32. now apply N.mod_small. Qed.

Lemma b40_words_lt : forall r, fst (b40_words r) < 2^32 /\ snd (b40_words r) < 2^32.
Proof.
  intros [off size]. unfold b40_words. destruct (_ <=? size); [split; reflexivity|].
  destruct (off <? _); cbn [fst snd]; split; try apply u32_lt; fold (u32 off); apply u32_lt.
Qed.

(** The two writers produce the same bytes. *)
Lemma put8_split : forall w, put_8bytes w = put_4bytes (w / 2^32) ++ put_4bytes w.
Proof.
  intro w. rewrite put_8bytes_div, !put_4bytes_div. cbn [app].
  rewrite !N.div_div by discriminate. reflexivity.
Qed.
Lemma put4_mod : forall w, put_4bytes (w mod 2^32) = put_4bytes w.
Proof.
  intro w. rewrite !put_4bytes_div. pows.
  repeat (f_equal; [lia|]). f_equal. lia.
Qed.
Lemma mmap_direct : forall t r, fst r < 2^64 -> mmap_bytes t r = direct_bytes t r.
Proof.
  intros t [off size] Ho. cbn [fst] in Ho. destruct t; cbn [mmap_bytes direct_bytes fst snd].
  - rewrite !le4_flip by apply u32_lt. reflexivity.
  - destruct (b40_words_lt (off, size)). rewrite !le4_flip by assumption. reflexivity.
  - rewrite !le4_flip by apply u32_lt. rewrite app_assoc. f_equal.
    rewrite u64_small by assumption. rewrite put8_split. rewrite !land_u32. change (N.land off 0xFFFFFFFF) with (u32 off).
    rewrite land_u32, !put4_mod, N.shiftr_div_pow2. reflexivity.
Qed.

(** The range of each format. *)
Definition in_range (t : offtype) (r : cref) : Prop :=
  match t with
  | B32 => fst r < 2^32 /\ snd r < 2^32
  | B40 => fst r < 2^40 /\ snd r < 2^24
  | B64 => fst r < 2^64 /\ snd r < 2^32
  end.

Lemma b40_arith : forall off size, off < 2^40 -> size < 2^24 ->
  b40_words (off, size) = (off mod 2^32, off / 2^32 * 2^24 + size).
Proof.
  intros off size Ho Hs. unfold b40_words.
  destruct (N.leb_spec 0x1000000 size); [pows; lia|].
  change (N.land off 0xFFFFFFFF) with (u32 off). rewrite land_u32.
  destruct (N.ltb_spec off 0x100000000).
  - f_equal. rewrite u32_id by (pows; lia). pows. lia.
  - f_equal. change 0xFF000000 with (N.shiftl (N.ones 8) 24). rewrite mask_field, N.shiftr_div_pow2.
    rewrite N.lor_comm. rewrite (lor_add _ 24).
    + rewrite u32_id by (pows; lia). pows. lia.
    + apply N.mod_mul. discriminate.
    + assumption.
Qed.
Lemma decode40_arith : forall w1 w2, w1 < 2^32 -> w2 < 2^32 ->
  decode40 w1 w2 = (w2 / 2^24 * 2^32 + w1, w2 mod 2^24).
Proof.
  intros w1 w2 H1 H2. unfold decode40. change 0xFF000000 with (N.shiftl (N.ones 8) 24).
  change 0x00FFFFFF with (N.ones 24). rewrite mask_field, N.land_ones, N.shiftl_mul_pow2.
  rewrite (lor_add _ 32).
  - f_equal. pows. lia.
  - pows. lia.
  - assumption.
Qed.

Theorem decode_direct : forall t r, in_range t r -> decode_ref t (direct_bytes t r) = Some r.
Proof.
  intros t [off size] H. destruct t; cbn [in_range fst snd] in H; destruct H as [Ho Hs];
    unfold decode_ref; cbn [direct_bytes fst snd].
  - rewrite read_4bytes_put. rewrite <- (app_nil_r (put_4bytes (u32 size))). rewrite read_4bytes_put.
    rewrite !u32_id by assumption. rewrite !N.mod_small by assumption. reflexivity.
  - rewrite b40_arith by assumption. cbn [fst snd].
    rewrite read_4bytes_put. rewrite <- (app_nil_r (put_4bytes (_ + size))). rewrite read_4bytes_put.
    rewrite N.mod_mod by discriminate. rewrite (N.mod_small (_ + size)) by (pows; lia).
    rewrite decode40_arith by (pows; lia). do 2 f_equal; pows; lia.
  - rewrite u64_small by assumption. rewrite put8_split. rewrite <- app_assoc, read_4bytes_put, read_4bytes_put.
    rewrite <- (app_nil_r (put_4bytes (u32 size))). rewrite read_4bytes_put.
    rewrite u32_id by assumption. rewrite (N.mod_small size) by assumption.
    rewrite N.shiftl_mul_pow2. rewrite (lor_add _ 32).
    + do 2 f_equal. pows. lia.
    + apply N.mod_mul. discriminate.
    + apply N.mod_lt. discriminate.
Qed.

Lemma direct_len : forall t r, length (direct_bytes t r) = N.to_nat (ref_size t).
Proof. intros [] r; cbn [direct_bytes]; rewrite app_length, ?put_4bytes_len, ?put_8bytes_len; reflexivity. Qed.
Lemma direct_blen : forall t r, blen (direct_bytes t r) = ref_size t.
Proof. intros. unfold blen. rewrite direct_len. apply N2Nat.id. Qed.
Lemma direct_nonnil : forall t r, direct_bytes t r <> [].
Proof. intros t r E. pose proof (direct_len t r) as L. rewrite E in L. destruct t; discriminate. Qed.

(** A file of bytes. *)
Definition file_ok (f : file) : Prop := forall i, i < fsize f -> fbyte f i < 256.
Lemma fget_ok : forall f i, file_ok f -> fget f i < 256.
Proof. intros f i H. unfold fget. destruct (N.ltb_spec i (fsize f)); [auto|reflexivity]. Qed.
Lemma nth_ok : forall bs k, bytes_ok bs = true -> nth k bs 0 < 256.
Proof.
  intros bs k H. unfold bytes_ok in H. rewrite forallb_forall in H.
  destruct (Nat.lt_ge_cases k (length bs)) as [C|C].
  - specialize (H _ (nth_In bs 0 C)). now apply N.ltb_lt.
  - rewrite nth_overflow by assumption. reflexivity.
Qed.
Lemma fwrite_ok : forall f pos bs, file_ok f -> bytes_ok bs = true -> file_ok (fwrite f pos bs).
Proof.
  intros f pos bs Hf Hb i Hi. rewrite <- fget_in by assumption. rewrite fget_fwrite.
  destruct (_ && _); [apply nth_ok; assumption|now apply fget_ok].
Qed.
Lemma direct_ok : forall t r, bytes_ok (direct_bytes t r) = true.
Proof.
  intros [] r; unfold bytes_ok, direct_bytes; rewrite forallb_app; apply andb_true_intro; split;
    first [apply put_4bytes_ok|apply put_8bytes_ok].
Qed.

(** The reader of the mapped table decodes the same bytes. *)
Lemma fread_map4 : forall f pos, pos + 4 <= fsize f ->
  fread f pos 4 = Some [fget f pos; fget f (pos + 1); fget f (pos + 2); fget f (pos + 3)].
Proof. intros f pos H. rewrite fread_eq by lia. cbn [seq map]. rewrite N.add_0_r. reflexivity. Qed.
Lemma word_at_read : forall f pos rest, file_ok f -> pos + 4 <= fsize f ->
  exists b w, fread f pos 4 = Some b /\ word_at f pos = Some w /\ read_4bytes (b ++ rest) = Some (w, rest).
Proof.
  intros f pos rest Hf Hp. eexists. eexists. split; [apply fread_map4; assumption|].
  unfold word_at. rewrite fread_map4 by assumption. split; [reflexivity|].
  cbn [app]. apply word_read; now apply fget_ok.
Qed.
Theorem get_chunk_decode : forall f t offset offmax, file_ok f -> offset < offmax ->
  get_chunk_ref f t offset offmax =
  match fread f (256 + offset * ref_size t) (N.to_nat (ref_size t)) with Some b => decode_ref t b | None => None end.
Proof.
  intros f t offset offmax Hf Ho. unfold get_chunk_ref. destruct (N.leb_spec offmax offset); [lia|].
  set (pos := 256 + offset * ref_size t). clearbody pos.
  destruct (N.le_gt_cases (pos + ref_size t) (fsize f)) as [C|C].
  - destruct t; cbn [ref_size] in C.
    + change (N.to_nat (ref_size B32)) with (4 + 4)%nat. rewrite fread_app. change (N.of_nat 4) with 4.
      destruct (word_at_read f (pos + 4) [] Hf ltac:(lia)) as (b2 & w2 & R2 & W2 & D2).
      destruct (word_at_read f pos b2 Hf ltac:(lia)) as (b1 & w1 & R1 & W1 & D1).
      rewrite R1, R2, W1, W2. unfold decode_ref. rewrite D1. rewrite app_nil_r in D2. rewrite D2. reflexivity.
    + change (N.to_nat (ref_size B40)) with (4 + 4)%nat. rewrite fread_app. change (N.of_nat 4) with 4.
      destruct (word_at_read f (pos + 4) [] Hf ltac:(lia)) as (b2 & w2 & R2 & W2 & D2).
      destruct (word_at_read f pos b2 Hf ltac:(lia)) as (b1 & w1 & R1 & W1 & D1).
      rewrite R1, R2, W1, W2. unfold decode_ref. rewrite D1. rewrite app_nil_r in D2. rewrite D2. reflexivity.
    + change (N.to_nat (ref_size B64)) with (4 + (4 + 4))%nat. rewrite !fread_app. change (N.of_nat 4) with 4.
      replace (pos + 4 + 4) with (pos + 8) by lia.
      destruct (word_at_read f (pos + 8) [] Hf ltac:(lia)) as (b3 & w3 & R3 & W3 & D3).
      destruct (word_at_read f (pos + 4) b3 Hf ltac:(lia)) as (b2 & w2 & R2 & W2 & D2).
      destruct (word_at_read f pos (b2 ++ b3) Hf ltac:(lia)) as (b1 & w1 & R1 & W1 & D1).
      rewrite R1, R2, R3, W1, W2, W3. unfold decode_ref. rewrite D1, D2.
      rewrite app_nil_r in D3. rewrite D3. reflexivity.
  - rewrite fread_short by (rewrite N2Nat.id; assumption).
    destruct t; cbn [ref_size] in C; unfold word_at.
    1,2: rewrite (fread_short f (pos + 4)) by (change (N.of_nat 4) with 4; lia); destruct (fread f pos 4); reflexivity.
    rewrite (fread_short f (pos + 8)) by (change (N.of_nat 4) with 4; lia).
    destruct (fread f pos 4); [|reflexivity]. destruct (fread f (pos + 4) 4); reflexivity.
Qed.

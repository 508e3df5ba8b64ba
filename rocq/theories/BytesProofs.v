(** * Proofs about the byte-level I/O layer. *)
From Verif Require Import BytesModel.
From Coq Require Import ZifyBool ZifyNat ZifyN.
Local Open Scope N_scope.
Ltac Zify.zify_post_hook ::= Z.div_mod_to_equations.

Arguments N.add : simpl never.
Arguments N.mul : simpl never.
Arguments N.pow : simpl never.
Arguments N.div : simpl never.
Arguments N.modulo : simpl never.
Arguments N.shiftl : simpl never.
Arguments N.shiftr : simpl never.
Arguments N.land : simpl never.
Arguments N.lor : simpl never.
Arguments N.ltb : simpl never.
Arguments N.leb : simpl never.
Arguments N.eqb : simpl never.
Arguments N.sub : simpl never.

(** ** Bit operations as arithmetic *)

Lemma lor_add X k b : X mod 2^k = 0 -> b < 2^k -> N.lor X b = X + b.
Proof.
  intros HX Hb.
  assert (Hl : N.land X b = 0).
  { apply N.bits_inj. intro i. rewrite N.land_spec, N.bits_0.
    destruct (N.lt_ge_cases i k) as [H|H].
    - assert (HT : N.testbit X i = false).
      { assert (E : X = N.shiftl (X / 2^k) k).
        { rewrite N.shiftl_mul_pow2. pose proof (N.div_mod X (2^k) ltac:(apply N.pow_nonzero; lia)).
          rewrite HX in H0. lia. }
        rewrite E. rewrite N.shiftl_spec_low by exact H. reflexivity. }
      rewrite HT. reflexivity.
    - assert (HT : N.testbit b i = false).
      { destruct (N.eq_dec b 0) as [->|Hnz]; [apply N.bits_0|].
        apply N.bits_above_log2.
        apply N.lt_le_trans with k; [|exact H].
        apply N.log2_lt_pow2; [lia|exact Hb]. }
      rewrite HT. apply andb_false_r. }
  rewrite <- (N.lxor_lor _ _ Hl). symmetry. apply N.add_nocarry_lxor. exact Hl.
Qed.

Lemma land_FF x : N.land x 0xFF = x mod 256.
Proof. change 0xFF with (N.ones 8). rewrite N.land_ones. reflexivity. Qed.
Lemma land_FF' x : N.land 0xFF x = x mod 256.
Proof. rewrite N.land_comm. apply land_FF. Qed.
Lemma land_7F x : N.land x 0x7F = x mod 128.
Proof. change 0x7F with (N.ones 7). rewrite N.land_ones. reflexivity. Qed.
Lemma land_7F' x : N.land 0x7F x = x mod 128.
Proof. rewrite N.land_comm. apply land_7F. Qed.
Lemma land_u64 x : u64 x = x mod 2^64.
Proof. unfold u64. change 0xFFFFFFFFFFFFFFFF with (N.ones 64). apply N.land_ones. Qed.
Lemma land_u32 x : u32 x = x mod 2^32.
Proof. unfold u32. change 0xFFFFFFFF with (N.ones 32). apply N.land_ones. Qed.
Lemma u64_small x : x < 2^64 -> u64 x = x.
Proof. intros. rewrite land_u64. apply N.mod_small. exact H. Qed.

Ltac arith_bits :=
  repeat rewrite ?land_FF, ?land_FF', ?land_7F, ?land_7F', ?N.shiftr_div_pow2,
    ?N.shiftl_mul_pow2.
Ltac pows :=
  repeat match goal with
  | |- context [2 ^ ?k] => let v := eval vm_compute in (2 ^ k) in change (2 ^ k) with v
  | H : context [2 ^ ?k] |- _ =>
    let v := eval vm_compute in (2 ^ k) in change (2 ^ k) with v in H
  end.

(** Rewrites an innermost [N.lor], whose right side is below [2^k]. *)
Ltac lor_step k :=
  match goal with
  | |- context [N.lor ?a ?b] =>
    lazymatch a with context [N.lor _ _] => fail | _ => idtac end;
    lazymatch b with context [N.lor _ _] => fail | _ => idtac end;
    rewrite (lor_add a k b) by (pows; lia)
  end.

(** ** Fixed width integers *)

Lemma put_4bytes_div w :
  put_4bytes w = [w / 2^24 mod 256; w / 2^16 mod 256; w / 2^8 mod 256; w mod 256].
Proof. unfold put_4bytes. arith_bits. change (2^0) with 1. rewrite N.div_1_r. reflexivity. Qed.

Lemma put_8bytes_div w :
  put_8bytes w = [w / 2^56 mod 256; w / 2^48 mod 256; w / 2^40 mod 256; w / 2^32 mod 256;
                  w / 2^24 mod 256; w / 2^16 mod 256; w / 2^8 mod 256; w mod 256].
Proof. unfold put_8bytes. arith_bits. change (2^0) with 1. rewrite N.div_1_r. reflexivity. Qed.

Lemma get4_arith b0 b1 b2 b3 r :
  b0 < 256 -> b1 < 256 -> b2 < 256 -> b3 < 256 ->
  get4 (b0 :: b1 :: b2 :: b3 :: r) = Some (b0 * 2^24 + b1 * 2^16 + b2 * 2^8 + b3).
Proof.
  intros H0 H1 H2 H3. unfold get4. arith_bits. f_equal.
  lor_step 24.
  lor_step 16.
  lor_step 8.
  pows; lia.
Qed.

Lemma get8_arith b0 b1 b2 b3 b4 b5 b6 b7 r :
  b0 < 256 -> b1 < 256 -> b2 < 256 -> b3 < 256 ->
  b4 < 256 -> b5 < 256 -> b6 < 256 -> b7 < 256 ->
  get8 (b0 :: b1 :: b2 :: b3 :: b4 :: b5 :: b6 :: b7 :: r) =
  Some (b0 * 2^56 + b1 * 2^48 + b2 * 2^40 + b3 * 2^32 +
        b4 * 2^24 + b5 * 2^16 + b6 * 2^8 + b7).
Proof.
  intros H0 H1 H2 H3 H4 H5 H6 H7. unfold get8. arith_bits. f_equal.
  lor_step 56.
  lor_step 48.
  lor_step 40.
  lor_step 32.
  lor_step 24.
  lor_step 16.
  lor_step 8.
  pows; lia.
Qed.

Lemma mod_split w k : w mod 2^(k + 8) = w mod 2^k + 2^k * ((w / 2^k) mod 256).
Proof.
  rewrite N.pow_add_r. change (2^8) with 256.
  apply N.mod_mul_r; [apply N.pow_nonzero|]; discriminate.
Qed.

Lemma mod32_split w : w mod 2^32 =
  (w / 2^24 mod 256) * 2^24 + (w / 2^16 mod 256) * 2^16 + (w / 2^8 mod 256) * 2^8 + w mod 256.
Proof.
  change 32 with (24 + 8). rewrite mod_split.
  change (w mod 2^24) with (w mod 2^(16 + 8)). rewrite mod_split.
  change (w mod 2^16) with (w mod 2^(8 + 8)). rewrite mod_split.
  change (w mod 2^8) with (w mod 256). ring.
Qed.

Lemma mod64_split w : w mod 2^64 =
  (w / 2^56 mod 256) * 2^56 + (w / 2^48 mod 256) * 2^48 + (w / 2^40 mod 256) * 2^40 +
  (w / 2^32 mod 256) * 2^32 + (w / 2^24 mod 256) * 2^24 + (w / 2^16 mod 256) * 2^16 +
  (w / 2^8 mod 256) * 2^8 + w mod 256.
Proof.
  change 64 with (56 + 8). rewrite mod_split.
  change (w mod 2^56) with (w mod 2^(48 + 8)). rewrite mod_split.
  change (w mod 2^48) with (w mod 2^(40 + 8)). rewrite mod_split.
  change (w mod 2^40) with (w mod 2^(32 + 8)). rewrite mod_split.
  rewrite mod32_split. ring.
Qed.

Lemma read_4bytes_put w r :
  read_4bytes (put_4bytes w ++ r) = Some (w mod 2^32, r).
Proof.
  unfold read_4bytes. rewrite put_4bytes_div. cbn [app request_bytes length Nat.leb].
  rewrite get4_arith by (apply N.mod_lt; discriminate). cbn [skipn].
  rewrite mod32_split. reflexivity.
Qed.

Lemma read_8bytes_put w r :
  read_8bytes (put_8bytes w ++ r) = Some (w mod 2^64, r).
Proof.
  unfold read_8bytes. rewrite put_8bytes_div. cbn [app request_bytes length Nat.leb].
  rewrite get8_arith by (apply N.mod_lt; discriminate). cbn [skipn].
  rewrite mod64_split. reflexivity.
Qed.

Lemma put_4bytes_len w : length (put_4bytes w) = 4%nat.
Proof. reflexivity. Qed.
Lemma put_8bytes_len w : length (put_8bytes w) = 8%nat.
Proof. reflexivity. Qed.

Lemma put_4bytes_ok w : bytes_ok (put_4bytes w) = true.
Proof. rewrite put_4bytes_div. unfold bytes_ok, byte_ok. cbn [forallb].
  rewrite !andb_true_iff. repeat split; try (apply N.ltb_lt; apply N.mod_lt; discriminate). Qed.
Lemma put_8bytes_ok w : bytes_ok (put_8bytes w) = true.
Proof. rewrite put_8bytes_div. unfold bytes_ok, byte_ok. cbn [forallb].
  rewrite !andb_true_iff. repeat split; try (apply N.ltb_lt; apply N.mod_lt; discriminate). Qed.

Lemma read_4bytes_short l : (length l < 4)%nat -> read_4bytes l = None.
Proof. intros H. unfold read_4bytes, request_bytes.
  destruct (Nat.leb_spec 4 (length l)); [lia|reflexivity]. Qed.
Lemma read_8bytes_short l : (length l < 8)%nat -> read_8bytes l = None.
Proof. intros H. unfold read_8bytes, request_bytes.
  destruct (Nat.leb_spec 8 (length l)); [lia|reflexivity]. Qed.

Lemma read_bytes_app l r : read_bytes (l ++ r) (length l) = Some (l, r).
Proof.
  unfold read_bytes, request_bytes. rewrite app_length.
  destruct (Nat.leb_spec (length l) (length l + length r)) as [_|H]; [|lia].
  rewrite firstn_app, Nat.sub_diag, firstn_all. cbn. rewrite app_nil_r.
  rewrite skipn_app, Nat.sub_diag, skipn_all. reflexivity.
Qed.

(** ** Variable length integers *)

Lemma vgroup_arith n k : vgroup n k = 128 + (n / 2^k) mod 128.
Proof.
  unfold vgroup. arith_bits.
  rewrite (lor_add _ 7); [reflexivity|reflexivity|].
  apply N.mod_lt; discriminate.
Qed.

Lemma bit7_set m : m < 128 -> N.land (128 + m) 0x80 = 128.
Proof.
  intros H. rewrite <- (lor_add 128 7) by (pows; lia).
  rewrite N.land_lor_distr_l.
  assert (E : N.land m 128 = 0).
  { apply N.bits_inj. intro i. rewrite N.land_spec, N.bits_0.
    change 128 with (2^7). rewrite N.pow2_bits_eqb.
    destruct (N.eqb_spec 7 i) as [<-|Hn]; [|apply andb_false_r].
    destruct (N.eq_dec m 0) as [->|Hz]; [reflexivity|].
    rewrite N.bits_above_log2; [reflexivity|].
    apply N.log2_lt_pow2; [lia|exact H]. }
  rewrite E. reflexivity.
Qed.

Lemma bit7_clear m : m < 128 -> N.land m 0x80 = 0.
Proof.
  intros H. apply N.bits_inj. intro i. rewrite N.land_spec, N.bits_0.
  change 128 with (2^7). rewrite N.pow2_bits_eqb.
  destruct (N.eqb_spec 7 i) as [<-|Hn]; [|apply andb_false_r].
  destruct (N.eq_dec m 0) as [->|Hz]; [reflexivity|].
  rewrite N.bits_above_log2; [reflexivity|].
  apply N.log2_lt_pow2; [lia|exact H].
Qed.

Lemma loop_group acc m r :
  acc < 2^57 -> m < 128 ->
  read_varint_loop acc ((128 + m) :: r) = read_varint_loop (acc * 128 + m) r.
Proof.
  intros Ha Hm. cbn [read_varint_loop].
  destruct (N.eqb_spec (128 + m) 0) as [E|_]; [lia|].
  rewrite bit7_set by exact Hm. change (negb (128 =? 0)) with true. cbn match.
  f_equal. rewrite land_7F. arith_bits.
  replace ((128 + m) mod 128) with m by lia.
  rewrite u64_small by (pows; lia).
  apply (lor_add _ 7); [pows; lia|exact Hm].
Qed.

Lemma loop_last acc m r :
  acc < 2^57 -> m < 128 ->
  read_varint_loop acc (m :: r) = Some (acc * 128 + m, r).
Proof.
  intros Ha Hm. cbn [read_varint_loop].
  rewrite bit7_clear by exact Hm.
  assert (E : N.lor (u64 (N.shiftl acc 7)) m = acc * 128 + m).
  { arith_bits. rewrite u64_small by (pows; lia). apply (lor_add _ 7); [pows; lia|exact Hm]. }
  rewrite E. destruct (m =? 0); reflexivity.
Qed.

(** Generic group list: the last byte and [j] groups above it. *)
Fixpoint groups (n : N) (j : nat) : bytes :=
  match j with
  | O => [n mod 128]
  | S j' => (128 + (n / 2^(7 * N.of_nat (S j'))) mod 128) :: groups n j'
  end.

Fixpoint thresh (j : nat) : N :=
  match j with O => 2^7 | S j' => thresh j' * 2^7 end.

Lemma put_varint_groups n : n < 2^63 ->
  exists j, (j < 9)%nat /\ put_varint n = groups n j /\ n < 2^(7 * N.of_nat (S j))
            /\ (j = 0%nat \/ 2^(7 * N.of_nat j) <= n)
            /\ write_varint_rv n = N.of_nat (S j).
Proof.
  intros Hn. unfold put_varint, write_varint_rv.
  rewrite !N.shiftl_1_l.
  destruct (N.ltb_spec n (2^7)).
  { exists 0%nat. cbn [groups]. unfold to_byte. rewrite land_FF.
    repeat split; [lia| |exact H|left; reflexivity]. f_equal. pows. lia. }
  destruct (N.ltb_spec n (2^14)).
  { exists 1%nat. cbn [groups]. unfold to_byte. rewrite land_FF, land_7F.
    repeat split; [lia| |exact H0|right; exact H]. f_equal.
    rewrite N.shiftr_div_pow2. rewrite (lor_add 128 7) by (pows; lia).
    change (2 ^ (7 * N.of_nat 1)) with 128. pows. lia. }
  destruct (N.ltb_spec n (2^21)).
  { exists 2%nat. cbn [groups]. rewrite !vgroup_arith, !land_7F.
    repeat split; [lia|exact H1|right; exact H0]. }
  destruct (N.ltb_spec n (2^28)).
  { exists 3%nat. cbn [groups]. rewrite !vgroup_arith, !land_7F.
    repeat split; [lia|exact H2|right; exact H1]. }
  destruct (N.ltb_spec n (2^35)).
  { exists 4%nat. cbn [groups]. rewrite !vgroup_arith, !land_7F.
    repeat split; [lia|exact H3|right; exact H2]. }
  destruct (N.ltb_spec n (2^42)).
  { exists 5%nat. cbn [groups]. rewrite !vgroup_arith, !land_7F.
    repeat split; [lia|exact H4|right; exact H3]. }
  destruct (N.ltb_spec n (2^49)).
  { exists 6%nat. cbn [groups]. rewrite !vgroup_arith, !land_7F.
    repeat split; [lia|exact H5|right; exact H4]. }
  destruct (N.ltb_spec n (2^56)).
  { exists 7%nat. cbn [groups]. rewrite !vgroup_arith, !land_7F.
    repeat split; [lia|exact H6|right; exact H5]. }
  exists 8%nat. cbn [groups]. rewrite !vgroup_arith, !land_7F.
  repeat split; [lia|exact Hn|right; exact H6].
Qed.

Lemma groups_length n j : length (groups n j) = S j.
Proof. induction j; cbn [groups length]; [reflexivity|]. now rewrite IHj. Qed.

Lemma loop_groups n j r acc :
  (j < 9)%nat -> n < 2^63 -> acc = n / 2^(7 * N.of_nat (S j)) ->
  acc < 2^(63 - 7 * N.of_nat (S j)) ->
  read_varint_loop acc (groups n j ++ r) = Some (n, r).
Proof.
  revert acc. induction j as [|j IH]; intros acc Hj Hn Ha Hb; cbn [groups app].
  - change (7 * N.of_nat 1) with 7 in *. change (63 - 7) with 56 in Hb.
    rewrite loop_last; [f_equal; f_equal; subst acc; pows; lia|pows; lia|apply N.mod_lt; discriminate].
  - assert (Hp : 2^(7 * N.of_nat (S (S j))) = 2^(7 * N.of_nat (S j)) * 128).
    { replace (7 * N.of_nat (S (S j))) with (7 * N.of_nat (S j) + 7) by lia.
      rewrite N.pow_add_r. reflexivity. }
    assert (Hz : 2^(7 * N.of_nat (S j)) <> 0) by (apply N.pow_nonzero; discriminate).
    assert (Hacc : acc < 2^57).
    { apply N.lt_le_trans with (1:=Hb). apply N.pow_le_mono_r; lia. }
    rewrite loop_group; [|exact Hacc|apply N.mod_lt; discriminate].
    apply IH; [lia|exact Hn| |].
    + subst acc. rewrite Hp. rewrite <- N.div_div by (assumption || discriminate).
      set (q := n / 2 ^ (7 * N.of_nat (S j))). lia.
    + subst acc. rewrite Hp. rewrite <- N.div_div by (assumption || discriminate).
      set (q := n / 2 ^ (7 * N.of_nat (S j))).
      assert (Hq : q < 2 ^ (63 - 7 * N.of_nat (S j))).
      { unfold q. apply N.div_lt_upper_bound; [exact Hz|].
        rewrite <- N.pow_add_r.
        replace (7 * N.of_nat (S j) + (63 - 7 * N.of_nat (S j))) with 63 by lia. exact Hn. }
      replace (q / 128 * 128 + q mod 128) with q by lia. exact Hq.
Qed.

Lemma read_varint_put n r : n < 2^63 -> read_varint (put_varint n ++ r) = Some (n, r).
Proof.
  intros Hn. destruct (put_varint_groups n Hn) as (j & Hj & -> & Hlt & _ & _).
  unfold read_varint. apply loop_groups; [exact Hj|exact Hn| |].
  - symmetry. apply N.div_small. exact Hlt.
  - apply N.neq_0_lt_0. apply N.pow_nonzero. discriminate.
Qed.

Lemma put_varint_len n : n < 2^63 ->
  N.of_nat (length (put_varint n)) = write_varint_rv n
  /\ (1 <= length (put_varint n) <= 9)%nat.
Proof.
  intros Hn. destruct (put_varint_groups n Hn) as (j & Hj & -> & _ & _ & ->).
  rewrite groups_length. lia.
Qed.

Lemma put_varint_mono n m : n <= m -> m < 2^63 ->
  (length (put_varint n) <= length (put_varint m))%nat.
Proof.
  intros Hnm Hm.
  destruct (put_varint_groups n ltac:(lia)) as (j & Hj & -> & Hlt & Hlo & _).
  destruct (put_varint_groups m Hm) as (k & Hk & -> & Hltk & Hlok & _).
  rewrite !groups_length. destruct (Nat.le_gt_cases (S j) (S k)) as [H|H]; [exact H|].
  exfalso. destruct Hlo as [->|Hlo]; [lia|].
  assert (2 ^ (7 * N.of_nat (S k)) <= 2 ^ (7 * N.of_nat j)) by (apply N.pow_le_mono_r; lia).
  lia.
Qed.

Lemma put_varint_ok n : n < 2^63 -> bytes_ok (put_varint n) = true.
Proof.
  intros Hn. destruct (put_varint_groups n Hn) as (j & Hj & -> & _).
  clear Hj. induction j; cbn [groups bytes_ok forallb]; unfold byte_ok.
  - rewrite andb_true_iff. split; [|reflexivity]. apply N.ltb_lt.
    pose proof (N.mod_lt n 128 ltac:(discriminate)). lia.
  - rewrite andb_true_iff. split; [|exact IHj].
    apply N.ltb_lt. pose proof (N.mod_lt (n / 2 ^ (7 * N.of_nat (S j))) 128 ltac:(discriminate)). lia.
Qed.

Lemma loop_all_high l : forallb (fun b => (128 <=? b) && (b <? 256)) l = true ->
  forall acc, read_varint_loop acc l = None.
Proof.
  induction l as [|b l IH]; intros H acc; [reflexivity|].
  cbn [forallb] in H. apply andb_true_iff in H. destruct H as [Hb Hl].
  apply andb_true_iff in Hb. destruct Hb as [Hb1 Hb2].
  cbn [read_varint_loop].
  destruct (N.eqb_spec b 0); [lia|].
  replace b with (128 + (b - 128)) at 1 by lia.
  rewrite bit7_set by lia. change (negb (128 =? 0)) with true. cbn match.
  apply IH. exact Hl.
Qed.

Lemma firstn_groups_high n j k : (k < S j)%nat ->
  forallb (fun b => (128 <=? b) && (b <? 256)) (firstn k (groups n j)) = true.
Proof.
  revert k. induction j as [|j IH]; intros k Hk.
  - destruct k; [reflexivity|lia].
  - destruct k; [reflexivity|]. cbn [groups firstn forallb].
    rewrite IH by lia.
    pose proof (N.mod_lt (n / 2 ^ (7 * N.of_nat (S j))) 128 ltac:(discriminate)) as H.
    revert H. generalize ((n / 2 ^ (7 * N.of_nat (S j))) mod 128). intros q H.
    rewrite !andb_true_iff. repeat split; [apply N.leb_le|apply N.ltb_lt]; lia.
Qed.

Lemma read_varint_prefix n k : n < 2^63 -> (k < length (put_varint n))%nat ->
  read_varint (firstn k (put_varint n)) = None.
Proof.
  intros Hn Hk. destruct (put_varint_groups n Hn) as (j & Hj & E & _). rewrite E in *.
  rewrite groups_length in Hk. apply loop_all_high. apply firstn_groups_high. exact Hk.
Qed.

(** ** Byte flips *)

Definition rev4 (b0 b1 b2 b3 : N) : N := b0 + b1 * 2^8 + b2 * 2^16 + b3 * 2^24.

Lemma mask_field x k j :
  N.land x (N.shiftl (N.ones j) k) = (x / 2^k) mod 2^j * 2^k.
Proof.
  rewrite <- N.land_ones, <- N.shiftr_div_pow2, <- N.shiftl_mul_pow2.
  apply N.bits_inj. intro i. rewrite N.land_spec.
  destruct (N.lt_ge_cases i k) as [H|H].
  - rewrite !N.shiftl_spec_low by exact H. apply andb_false_r.
  - rewrite !N.shiftl_spec_high' by exact H. rewrite N.land_spec.
    rewrite N.shiftr_spec'. replace (i - k + k) with i by lia. reflexivity.
Qed.

Lemma flip_word_rev b0 b1 b2 b3 :
  b0 < 256 -> b1 < 256 -> b2 < 256 -> b3 < 256 ->
  flip_word (rev4 b0 b1 b2 b3) = rev4 b3 b2 b1 b0.
Proof.
  intros H0 H1 H2 H3. unfold flip_word.
  change 0xff000000 with (N.shiftl (N.ones 8) 24).
  change 0x00ff0000 with (N.shiftl (N.ones 8) 16).
  change 0x0000ff00 with (N.shiftl (N.ones 8) 8).
  rewrite !mask_field.
  rewrite !N.shiftr_div_pow2, !N.shiftl_mul_pow2.
  unfold rev4.
  set (w := b0 + b1 * 2 ^ 8 + b2 * 2 ^ 16 + b3 * 2 ^ 24).
  assert (E1 : (w * 2 ^ 24 / 2 ^ 24) mod 2 ^ 8 = b0) by (unfold w; pows; lia).
  assert (E2 : (w * 2 ^ 8 / 2 ^ 16) mod 2 ^ 8 = b1) by (unfold w; pows; lia).
  assert (E3 : (w / 2 ^ 8 / 2 ^ 8) mod 2 ^ 8 = b2) by (unfold w; pows; lia).
  assert (E4 : w / 2 ^ 24 = b3) by (unfold w; pows; lia).
  rewrite E1, E2, E3, E4.
  lor_step 24.
  lor_step 16.
  lor_step 8.
  pows; lia.
Qed.

Lemma flip_word_invol w : w < 2^32 -> flip_word (flip_word w) = w.
Proof.
  intros Hw.
  assert (E : w = rev4 (w mod 256) (w / 2^8 mod 256) (w / 2^16 mod 256) (w / 2^24 mod 256))
    by (unfold rev4; pows; lia).
  rewrite E at 1. rewrite !flip_word_rev by (apply N.mod_lt; discriminate).
  symmetry. exact E.
Qed.

Lemma flip_word_bytes w : w < 2^32 -> put_4bytes (flip_word w) = rev (put_4bytes w).
Proof.
  intros Hw.
  assert (E : w = rev4 (w mod 256) (w / 2^8 mod 256) (w / 2^16 mod 256) (w / 2^24 mod 256))
    by (unfold rev4; pows; lia).
  rewrite E at 1. rewrite !flip_word_rev by (apply N.mod_lt; discriminate).
  rewrite !put_4bytes_div. cbn [rev app]. unfold rev4.
  set (a := w mod 256). set (b := w / 2^8 mod 256).
  set (c := w / 2^16 mod 256). set (d := w / 2^24 mod 256).
  assert (a < 256) by (apply N.mod_lt; discriminate).
  assert (b < 256) by (apply N.mod_lt; discriminate).
  assert (c < 256) by (apply N.mod_lt; discriminate).
  assert (d < 256) by (apply N.mod_lt; discriminate).
  clearbody a b c d. pows.
  repeat (f_equal; [lia|]). f_equal. lia.
Qed.

(** ** Output buffers *)

Definition outbuf_wf (b : outbuf) : Prop :=
  blen (ob_data b) <= ob_lim b /\ ob_lim b <= ob_len b.

Lemma blen_app a b : blen (a ++ b) = blen a + blen b.
Proof. unfold blen. rewrite app_length. lia. Qed.

Lemma grow_limit_spec f nl need : 0 < nl -> need <= nl + N.of_nat f ->
  exists nl', grow_limit f nl need = Some nl' /\ need <= nl' /\ nl <= nl'.
Proof.
  revert nl. induction f as [|f IH]; intros nl Hp Hf; cbn [grow_limit].
  - destruct (N.ltb_spec nl need); [lia|]. exists nl. repeat split; lia.
  - destruct (N.ltb_spec nl need); [|exists nl; repeat split; lia].
    destruct (N.leb_spec 250000 nl).
    + destruct (IH (nl + 250000)) as (x & -> & ? & ?); [lia|lia|]. exists x. repeat split; lia.
    + destruct (IH (nl * 2)) as (x & -> & ? & ?); [lia|lia|]. exists x. repeat split; lia.
Qed.

Definition same_out (b b1 : outbuf) : Prop :=
  ob_out b1 ++ ob_data b1 = ob_out b ++ ob_data b.
Definition same_flags (b b1 : outbuf) : Prop :=
  ob_flush b1 = ob_flush b /\ ob_nogrow b1 = ob_nogrow b /\ ob_noflush b1 = ob_noflush b.

Lemma grow_spec b delta : outbuf_wf b -> ob_lim b <= blen (ob_data b) + delta ->
  exists b1, grow_output_buffer b delta = Some (b1, 1%Z) /\ outbuf_wf b1
    /\ blen (ob_data b1) + delta <= ob_lim b1 /\ same_out b b1 /\ same_flags b b1.
Proof.
  intros [H1 H2] H. unfold grow_output_buffer.
  destruct (N.ltb_spec (blen (ob_data b) + delta) (ob_lim b)); [lia|].
  destruct (grow_limit_spec (S (N.to_nat (blen (ob_data b) + delta)))
              (if ob_lim b =? 0 then 1000 else ob_lim b) (blen (ob_data b) + delta))
    as (x & -> & Hx1 & Hx2).
  - destruct (N.eqb_spec (ob_lim b) 0); lia.
  - lia.
  - eexists. split; [reflexivity|]. unfold outbuf_wf, same_out, same_flags. cbn.
    repeat split; try lia.
Qed.

Lemma needs_space_spec fl b delta :
  outbuf_wf b -> (ob_flush b = false \/ (fl = true /\ ob_nogrow b = false)) ->
  exists b1 r, needs_space fl b delta = Some (b1, r) /\ (r <> 0)%Z /\ outbuf_wf b1
    /\ blen (ob_data b1) + delta <= ob_lim b1 /\ same_out b b1 /\ same_flags b b1.
Proof.
  intros Hwf Hfl. unfold needs_space.
  destruct (N.ltb_spec (ob_lim b) (blen (ob_data b) + delta)).
  2:{ exists b, 1%Z. destruct Hwf. unfold outbuf_wf, same_out, same_flags. repeat split; try lia; try congruence. }
  unfold check_output_buffer.
  destruct Hfl as [E|[-> E]]; rewrite E.
  { cbn [andb]. destruct (grow_spec b delta Hwf ltac:(lia)) as (b1 & -> & ? & ? & ? & ?).
    exists b1, 1%Z. split; [reflexivity|]. split; [discriminate|]. auto. }
  cbn [orb negb].
  destruct (ob_flush b && _) eqn:Ec.
  2:{ destruct (grow_spec b delta Hwf ltac:(lia)) as (b1 & -> & ? & ? & ? & ?).
    exists b1, 1%Z. split; [reflexivity|]. split; [discriminate|]. auto. }
  cbn [ob_lim ob_len ob_out ob_data].
  destruct (N.ltb_spec (0 + delta) (ob_lim b)).
  { eexists _, _. split; [reflexivity|]. unfold outbuf_wf, same_out, same_flags, blen in *.
    cbn in *. destruct Hwf. rewrite app_nil_r. repeat split; try lia; try congruence. }
  destruct (N.ltb_spec (0 + delta) (ob_len b)).
  { eexists _, _. split; [reflexivity|]. unfold outbuf_wf, same_out, same_flags, blen in *.
    cbn in *. destruct Hwf. rewrite app_nil_r. repeat split; try lia; try congruence. }
  match goal with |- context [grow_output_buffer ?x delta] => set (bb := x) end.
  destruct (grow_spec bb delta) as (b1 & -> & Hw & Hs & Ho & Hf).
  { unfold outbuf_wf, bb, blen. cbn. destruct Hwf. lia. }
  { unfold bb, blen. cbn. lia. }
  exists b1, 1%Z. split; [reflexivity|]. split; [discriminate|]. split; [exact Hw|].
  split; [exact Hs|]. split.
  - unfold same_out in *. rewrite Ho. unfold bb. cbn. now rewrite app_nil_r.
  - unfold same_flags in *. unfold bb in Hf. cbn in Hf. intuition congruence.
Qed.

Lemma write_bytes_spec fl b l :
  outbuf_wf b -> (ob_flush b = false \/ (fl = true /\ ob_nogrow b = false)) ->
  exists b1, write_bytes fl b l = WOk b1 (Z.of_N (blen l)) /\ outbuf_wf b1
    /\ ob_out b1 ++ ob_data b1 = (ob_out b ++ ob_data b) ++ l /\ same_flags b b1.
Proof.
  intros Hwf Hfl. unfold write_bytes.
  destruct (N.ltb_spec (blen (ob_data b) + blen l) (ob_lim b)).
  - unfold store_at. destruct Hwf as [H1 H2].
    destruct (N.leb_spec (blen (ob_data b) + blen l) (ob_len b)); [|lia].
    eexists. split; [reflexivity|]. unfold outbuf_wf, same_flags. cbn.
    rewrite blen_app. repeat split; try lia; try congruence. apply app_assoc.
  - destruct (needs_space_spec fl b (blen l) Hwf Hfl) as (b1 & r & -> & Hr & Hw & Hs & Ho & Hf).
    destruct (Z.eqb_spec r 0); [contradiction|].
    unfold store_at. destruct Hw as [H1 H2].
    destruct (N.leb_spec (blen (ob_data b1) + blen l) (ob_len b1)); [|lia].
    eexists. split; [reflexivity|]. unfold outbuf_wf, same_flags in *. cbn.
    rewrite blen_app. split; [lia|]. split; [|exact Hf].
    unfold same_out in Ho. rewrite <- Ho. apply app_assoc.
Qed.

Lemma write_all_spec fls ls : forall i b,
  outbuf_wf b ->
  (ob_flush b = false \/ ((forall j, fls j = true) /\ ob_nogrow b = false)) ->
  exists b1 rv, write_all fls i b ls = WOk b1 rv /\ outbuf_wf b1 /\
    ob_out b1 ++ ob_data b1 = (ob_out b ++ ob_data b) ++ concat ls.
Proof.
  induction ls as [|l ls IH]; intros i b Hwf Hfl; cbn [write_all concat].
  - exists b, 0%Z. rewrite app_nil_r. split; [reflexivity|split; [exact Hwf|reflexivity]].
  - destruct (write_bytes_spec (fls i) b l Hwf) as (b1 & -> & Hw & Ho & Hf1 & Hf2 & Hf3).
    { destruct Hfl as [E|[Hj E]]; [left; exact E|right; split; [apply Hj|exact E]]. }
    destruct (IH (S i) b1 Hw) as (b2 & rv & -> & Hw2 & Ho2).
    { rewrite Hf1, Hf2. exact Hfl. }
    exists b2, rv. split; [reflexivity|]. split; [exact Hw2|].
    rewrite Ho2, Ho. rewrite app_assoc. reflexivity.
Qed.

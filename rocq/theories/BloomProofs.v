(** * Lemmas about Bloom filters. *)
From Coq Require Import Lia.
From Verif Require Import BytesModel BytesProofs BloomModel.
Local Open Scope N_scope.

(** The bit numbers looked at for a key. *)
Definition pos (a b bits i : N) : N := u32 (a + u32 (i * b)) mod bits.
Definition positions (f : bloom) (k : list N) : list N :=
  let a := murmurhash2 k 0x9747b28c in let b := murmurhash2 k a in
  map (fun i => pos a b (bits f) (N.of_nat i)) (seq 0 (N.to_nat (hashes f))).
(** Bit [x] of a byte array. *)
Definition bit (buf : list N) (x : N) : bool := N.testbit (nth (N.to_nat (x / 8)) buf 0) (x mod 8).

Record bwf (f : bloom) : Prop := {
  bw_bits : 0 < bits f;
  bw_len : N.of_nat (length (bf f)) = bytes_for (bits f);
  bw_ok : Forall (fun b => b < 256) (bf f) }.

Lemma bytes_for_lt n x : x < n -> x / 8 < bytes_for n.
Proof. intros H. unfold bytes_for. destruct (N.eqb_spec (n mod 8) 0); lia. Qed.

Lemma store_length l : forall i v, length (store l i v) = length l.
Proof. induction l; destruct i; simpl; auto. Qed.
Lemma store_nth l : forall i v j, (i < length l)%nat -> nth j (store l i v) 0 = if Nat.eqb i j then v else nth j l 0.
Proof. induction l as [|a l IH]; intros [|i] v [|j]; simpl; try lia; auto. intros. apply IH. lia. Qed.
Lemma store_Forall (P : N -> Prop) l : forall i v, Forall P l -> P v -> Forall P (store l i v).
Proof. induction l; intros [|i] v F H; simpl; auto; inversion F; subst; constructor; auto. Qed.

Lemma mask_test c x : negb (N.land c (N.shiftl 1 (x mod 8)) =? 0) = N.testbit c (x mod 8).
Proof.
  destruct (N.testbit c (x mod 8)) eqn:E.
  - apply negb_true_iff, N.eqb_neq. intros H.
    assert (H' : N.testbit (N.land c (N.shiftl 1 (x mod 8))) (x mod 8) = false) by (rewrite H; apply N.bits_0).
    rewrite N.land_spec, E, N.shiftl_spec_high', N.sub_diag in H' by lia. discriminate.
  - apply negb_false_iff, N.eqb_eq, N.bits_inj_0. intros n. rewrite N.land_spec.
    destruct (N.lt_ge_cases n (x mod 8)).
    + rewrite N.shiftl_spec_low by auto. apply andb_false_r.
    + rewrite N.shiftl_spec_high' by auto. destruct (N.eq_dec n (x mod 8)) as [->|].
      * now rewrite E.
      * replace (N.testbit 1 (n - x mod 8)) with false; [apply andb_false_r|].
        symmetry. destruct (n - x mod 8) eqn:D; [lia|]. reflexivity.
Qed.
Lemma small_bits c : c < 256 -> forall n, 8 <= n -> N.testbit c n = false.
Proof.
  intros H n Hn. destruct (N.eq_dec c 0) as [->|]; [apply N.bits_0|].
  apply N.bits_above_log2. enough (N.log2 c < 8) by lia. apply N.log2_lt_pow2; lia.
Qed.
Lemma mask_set c x n : c < 256 -> N.testbit (to_byte (N.lor c (N.shiftl 1 (x mod 8)))) n = (n =? x mod 8) || N.testbit c n.
Proof.
  intros Hc. unfold to_byte. change 0xFF with (N.ones 8). rewrite N.land_spec, N.lor_spec.
  assert (Hx : x mod 8 < 8) by (apply N.mod_lt; discriminate).
  assert (S1 : N.testbit (N.shiftl 1 (x mod 8)) n = (n =? x mod 8)).
  { destruct (N.lt_ge_cases n (x mod 8)).
    - rewrite N.shiftl_spec_low by auto. symmetry. apply N.eqb_neq. lia.
    - rewrite N.shiftl_spec_high' by auto. destruct (N.eqb_spec n (x mod 8)) as [->|].
      + now rewrite N.sub_diag.
      + destruct (n - x mod 8) eqn:D; [lia|]. reflexivity. }
  rewrite S1. destruct (N.lt_ge_cases n 8).
  - rewrite N.ones_spec_low by auto. now rewrite andb_true_r, orb_comm.
  - rewrite N.ones_spec_high, andb_false_r by auto. rewrite (small_bits c Hc) by auto.
    rewrite orb_false_r. symmetry. apply N.eqb_neq. lia.
Qed.
Lemma to_byte_lt n : to_byte n < 256.
Proof. unfold to_byte. rewrite land_FF. apply N.mod_lt. discriminate. Qed.

Lemma tbsb_spec buf x set n : N.of_nat (length buf) = bytes_for n -> x < n -> Forall (fun b => b < 256) buf ->
  exists buf', test_bit_set_bit buf x set = Some (bit buf x, buf') /\
    length buf' = length buf /\ Forall (fun b => b < 256) buf' /\
    (set = false -> buf' = buf) /\
    (set = true -> forall y, bit buf' y = (y =? x) || bit buf y).
Proof.
  intros Hl Hx Hb. unfold test_bit_set_bit. rewrite N.shiftr_div_pow2. change (2^3) with 8.
  pose proof (bytes_for_lt n x Hx) as Hlt.
  assert (Hi : (N.to_nat (x / 8) < length buf)%nat) by lia.
  rewrite (nth_error_nth' buf 0 Hi). rewrite mask_test. fold (bit buf x).
  destruct (bit buf x) eqn:E.
  - exists buf. do 4 (split; [now auto|]). intros _ y. destruct (N.eqb_spec y x) as [->|]; auto.
  - assert (Hc : nth (N.to_nat (x / 8)) buf 0 < 256) by (eapply Forall_forall in Hb; [exact Hb|now apply nth_In]).
    eexists. split; [reflexivity|]. split; [destruct set; auto using store_length|].
    split; [destruct set; auto; apply store_Forall; auto using to_byte_lt|].
    split; [intros ->; auto|]. intros -> y. unfold bit. rewrite store_nth by auto.
    destruct (Nat.eqb_spec (N.to_nat (x / 8)) (N.to_nat (y / 8))) as [e|ne].
    + assert (e' : x / 8 = y / 8) by lia.
      rewrite mask_set by auto. rewrite <- e'. f_equal.
      pose proof (N.div_mod x 8 ltac:(discriminate)). pose proof (N.div_mod y 8 ltac:(discriminate)).
      destruct (N.eqb_spec (y mod 8) (x mod 8)), (N.eqb_spec y x); auto; subst; try lia; congruence.
    + destruct (N.eqb_spec y x) as [->|]; auto.
Qed.

Lemma ca_loop_spec a b nb n : forall i buf add hits, 0 < nb -> N.of_nat (length buf) = bytes_for nb ->
  Forall (fun b => b < 256) buf ->
  exists hits' buf', ca_loop n i a b nb buf add hits = Some (hits', buf') /\
    length buf' = length buf /\ Forall (fun b => b < 256) buf' /\
    (add = false -> buf' = buf) /\
    (add = true -> forall y, bit buf' y = true <->
        bit buf y = true \/ exists j, (j < n)%nat /\ y = pos a b nb (i + N.of_nat j)) /\
    hits' <= hits + N.of_nat n /\
    (hits' = hits + N.of_nat n <-> forall j, (j < n)%nat -> bit buf (pos a b nb (i + N.of_nat j)) = true).
Proof.
  induction n as [|n IH]; intros i buf add hits Hn Hl Hb; cbn [ca_loop].
  - exists hits, buf. do 4 (split; [now auto|]). split.
    { intros _ y. split; auto. intros [|(j & Hj & _)]; auto; lia. }
    split; [lia|]. split; [intros; lia|lia].
  - destruct (N.eqb_spec nb 0); [lia|]. fold (pos a b nb i).
    assert (Hp : pos a b nb i < nb) by (apply N.mod_lt; auto).
    destruct (tbsb_spec buf _ add nb Hl Hp Hb) as (buf1 & -> & L1 & B1 & N1 & A1).
    destruct (IH (i + 1) buf1 add (if bit buf (pos a b nb i) then hits + 1 else hits)) as
      (h' & buf2 & -> & L2 & B2 & N2 & A2 & H1 & H2); auto; [now rewrite L1|].
    exists h', buf2. split; [auto|]. split; [congruence|]. split; [auto|].
    assert (Sh : forall j, i + 1 + N.of_nat j = i + N.of_nat (S j)) by (intros; lia).
    split; [intros; rewrite N2, N1; auto|].
    split.
    { intros Ea y. rewrite A2 by auto. rewrite A1 by auto. split.
      - intros [H|(j & Hj & ->)].
        + apply orb_true_iff in H. destruct H as [H|]; auto. apply N.eqb_eq in H. subst. right. exists O.
          split; [lia|]. f_equal. lia.
        + right. exists (S j). split; [lia|]. now rewrite Sh.
      - intros [->|([|j] & Hj & ->)].
        + left. apply orb_true_r.
        + left. replace (i + N.of_nat 0) with i by lia. now rewrite N.eqb_refl.
        + right. exists j. split; [lia|]. now rewrite Sh. }
    split; [destruct (bit buf (pos a b nb i)); lia|].
    destruct (bit buf (pos a b nb i)) eqn:E.
    + assert (Eb : forall y, bit buf1 y = bit buf y).
      { intros y. destruct add; [|now rewrite N1]. rewrite A1 by auto.
        destruct (N.eqb_spec y (pos a b nb i)) as [->|]; auto. }
      split.
      * intros Hh j Hj. assert (Hh' : h' = hits + 1 + N.of_nat n) by lia. destruct j as [|j].
        -- replace (i + N.of_nat 0) with i by lia. auto.
        -- rewrite <- Eb, <- Sh. apply H2; auto. lia.
      * intros Hall. assert (h' = hits + 1 + N.of_nat n); [|lia].
        apply H2. intros j Hj. rewrite Eb, Sh. apply Hall. lia.
    + split; [lia|]. intros Hall. specialize (Hall O ltac:(lia)). replace (i + N.of_nat 0) with i in Hall by lia. congruence.
Qed.

Lemma in_positions f k y : In y (positions f k) <-> exists j, (j < N.to_nat (hashes f))%nat /\
  y = pos (murmurhash2 k 0x9747b28c) (murmurhash2 k (murmurhash2 k 0x9747b28c)) (bits f) (0 + N.of_nat j).
Proof.
  unfold positions. rewrite in_map_iff. split.
  - intros (j & <- & Hj). apply in_seq in Hj. exists j. split; [lia|]. now rewrite N.add_0_l.
  - intros (j & Hj & ->). exists j. split; [now rewrite N.add_0_l|]. apply in_seq. lia.
Qed.

(** The effect and result of one operation on one key. *)
Lemma check_add_spec f k add : bwf f ->
  exists rv f', bloom_check_add f k add = Some (rv, f') /\ bwf f' /\
    bits f' = bits f /\ hashes f' = hashes f /\ entries f' = entries f /\ adds f' = adds f /\
    (rv = 0 \/ rv = 1) /\
    (rv = 1 <-> forall p, In p (positions f k) -> bit (bf f) p = true) /\
    (add = false -> f' = f) /\
    (add = true -> added f' = added f + (1 - rv)) /\
    (add = true -> forall y, bit (bf f') y = true <-> bit (bf f) y = true \/ In y (positions f k)).
Proof.
  intros [W1 W2 W3]. unfold bloom_check_add.
  destruct (ca_loop_spec (murmurhash2 k 0x9747b28c) (murmurhash2 k (murmurhash2 k 0x9747b28c)) (bits f)
    (N.to_nat (hashes f)) 0 (bf f) add 0 W1 W2 W3) as (h & buf & -> & L & B & N1 & A & Hle & Hh).
  rewrite N.add_0_l, N2Nat.id in Hh, Hle.
  assert (HP : h = hashes f <-> forall p, In p (positions f k) -> bit (bf f) p = true).
  { rewrite Hh. split.
    - intros H p Hp. apply in_positions in Hp. destruct Hp as (j & Hj & ->). auto.
    - intros H j Hj. apply H. apply in_positions. eauto. }
  assert (HA : add = true -> forall y, bit buf y = true <-> bit (bf f) y = true \/ In y (positions f k)).
  { intros E y. rewrite A by auto. rewrite in_positions. tauto. }
  destruct (N.eqb_spec h (hashes f)) as [e|ne].
  - eexists. eexists. split; [reflexivity|]. cbn [bits hashes entries adds added bf].
    split; [constructor; cbn [bits bf]; auto; congruence|].
    do 5 (split; [now auto|]). split; [tauto|]. split; [|split; auto; intros; lia].
    intros E. rewrite N1 by auto. destruct f; reflexivity.
  - destruct add.
    + eexists. eexists. split; [reflexivity|]. cbn [bits hashes entries adds added bf].
      split; [constructor; cbn [bits bf]; auto; congruence|].
      do 5 (split; [now auto|]). split; [split; [discriminate|tauto]|]. split; [discriminate|]. split; auto.
    + eexists. eexists. split; [reflexivity|]. cbn [bits hashes entries adds added bf].
      split; [constructor; cbn [bits bf]; auto; congruence|].
      do 5 (split; [now auto|]). split; [split; [discriminate|tauto]|]. split; [|split; discriminate].
      intros _. rewrite N1 by auto. destruct f; reflexivity.
Qed.

(** Several keys. *)
Definition present (f : bloom) (k : list N) : bool := forallb (bit (bf f)) (positions f k).
Lemma present_spec f k : present f k = true <-> forall p, In p (positions f k) -> bit (bf f) p = true.
Proof. unfold present. apply forallb_forall. Qed.
Lemma positions_ext f f' k : bits f' = bits f -> hashes f' = hashes f -> positions f' k = positions f k.
Proof. unfold positions. now intros -> ->. Qed.

Lemma each_add keys : forall f c, bwf f -> exists rv f', bloom_each f keys true false c = Some (rv, f') /\
  bwf f' /\ bits f' = bits f /\ hashes f' = hashes f /\ entries f' = entries f /\ adds f' = adds f /\
  forall y, bit (bf f') y = true <-> bit (bf f) y = true \/ exists k, In k keys /\ In y (positions f k).
Proof.
  induction keys as [|k r IH]; intros f c W; cbn [bloom_each].
  - exists c, f. do 6 (split; [now auto|]). intros y. split; auto. intros [|(k & [] & _)]; auto.
  - destruct (check_add_spec f k true W) as (rv & f1 & -> & W1 & B1 & H1 & E1 & D1 & Hrv & _ & _ & _ & HA).
    specialize (HA eq_refl). rewrite andb_false_r. cbn [andb negb].
    assert (G : exists rv' f', (if rv =? 0 then bloom_each f1 r true false (c + 1) else bloom_each f1 r true false c) = Some (rv', f') /\
       bwf f' /\ bits f' = bits f1 /\ hashes f' = hashes f1 /\ entries f' = entries f1 /\ adds f' = adds f1 /\
       forall y, bit (bf f') y = true <-> bit (bf f1) y = true \/ exists k, In k r /\ In y (positions f1 k)).
    { destruct (rv =? 0); auto. }
    destruct G as (rv' & f2 & -> & W2 & B2 & H2 & E2 & D2 & HY).
    exists rv', f2. split; [auto|]. split; [auto|]. do 4 (split; [congruence|]).
    intros y. rewrite HY, HA. split.
    + intros [[|]|(k' & Hk' & Hy)]; auto; right.
      * exists k. simpl. auto.
      * exists k'. rewrite (positions_ext f f1) in Hy by auto. simpl. auto.
    + intros [|(k' & [<-|Hk'] & Hy)]; auto. right. exists k'. rewrite (positions_ext f f1) by auto. auto.
Qed.
Lemma each_check keys : forall f c, bwf f ->
  bloom_each f keys false true c = Some (if existsb (present f) keys then 1 else c, f).
Proof.
  induction keys as [|k r IH]; intros f c W; cbn [bloom_each existsb]; auto.
  destruct (check_add_spec f k false W) as (rv & f1 & -> & W1 & B1 & H1 & E1 & D1 & Hrv & HP & HN & _).
  rewrite (HN eq_refl). rewrite <- present_spec in HP.
  destruct Hrv as [->| ->]; cbn.
  - destruct (present f k); [discriminate (proj2 HP eq_refl)|]. simpl. apply IH; auto.
  - rewrite (proj1 HP eq_refl). reflexivity.
Qed.
Lemma each_hits keys : forall f c, bwf f ->
  bloom_each f keys false false c = Some (c + N.of_nat (length (filter (present f) keys)), f).
Proof.
  induction keys as [|k r IH]; intros f c W; cbn [bloom_each filter length].
  - f_equal. f_equal. lia.
  - destruct (check_add_spec f k false W) as (rv & f1 & -> & W1 & B1 & H1 & E1 & D1 & Hrv & HP & HN & _).
    rewrite (HN eq_refl). rewrite <- present_spec in HP. rewrite andb_false_r.
    destruct Hrv as [->| ->]; cbn [andb negb N.eqb].
    + destruct (present f k); [discriminate (proj2 HP eq_refl)|]. apply IH; auto.
    + rewrite (proj1 HP eq_refl). change (1 =? 1) with true. cbn iota. rewrite IH by auto. f_equal. f_equal.
      cbn [length]. lia.
Qed.

Lemma op_add f keys : bwf f -> exists rv f', bloom_op f keys true false = Some (rv, f') /\
  bwf f' /\ bits f' = bits f /\ hashes f' = hashes f /\ entries f' = entries f /\ adds f' = adds f /\
  forall y, bit (bf f') y = true <-> bit (bf f) y = true \/ exists k, In k keys /\ In y (positions f k).
Proof.
  intros W. destruct keys as [|k [|k2 r]]; [now apply each_add| |now apply each_add].
  destruct (check_add_spec f k true W) as (rv & f1 & E & W1 & B1 & H1 & E1 & D1 & Hrv & _ & _ & _ & HA).
  exists rv, f1. split; [exact E|]. do 5 (split; [now auto|]). intros y. rewrite HA by auto. split.
  - intros [|]; auto. right. exists k. simpl. auto.
  - intros [|(k' & [<-|[]] & Hy)]; auto.
Qed.
Lemma op_check f keys : bwf f -> bloom_op f keys false true = Some (if existsb (present f) keys then 1 else 0, f).
Proof.
  intros W. destruct keys as [|k [|k2 r]]; [now apply each_check| |now apply each_check].
  cbn [bloom_op]. destruct (check_add_spec f k false W) as (rv & f1 & -> & W1 & B1 & H1 & E1 & D1 & Hrv & HP & HN & _).
  rewrite (HN eq_refl). rewrite <- present_spec in HP. cbn [existsb]. rewrite orb_false_r.
  destruct (present f k).
  - now rewrite (proj2 HP eq_refl).
  - destruct Hrv as [->| ->]; auto. discriminate (proj1 HP eq_refl).
Qed.
Lemma op_hits f keys : bwf f -> bloom_op f keys false false = Some (N.of_nat (length (filter (present f) keys)), f).
Proof.
  intros W. destruct keys as [|k [|k2 r]]; [now apply each_hits| |now apply each_hits].
  cbn [bloom_op]. destruct (check_add_spec f k false W) as (rv & f1 & -> & W1 & B1 & H1 & E1 & D1 & Hrv & HP & HN & _).
  rewrite (HN eq_refl). rewrite <- present_spec in HP. cbn [filter].
  destruct (present f k).
  - now rewrite (proj2 HP eq_refl).
  - destruct Hrv as [->| ->]; auto. discriminate (proj1 HP eq_refl).
Qed.

Lemma bits_eq_list l m : length l = length m -> Forall (fun b => b < 256) l -> Forall (fun b => b < 256) m ->
  (forall y, bit l y = bit m y) -> l = m.
Proof.
  intros Hl F G H. apply (nth_ext l m 0 0); auto. intros n Hn.
  assert (A : nth n l 0 < 256) by (eapply Forall_forall in F; [exact F|now apply nth_In]).
  assert (B : nth n m 0 < 256) by (eapply Forall_forall in G; [exact G|apply nth_In; congruence]).
  apply N.bits_inj. intros k. destruct (N.lt_ge_cases k 8).
  - specialize (H (8 * N.of_nat n + k)). unfold bit in H.
    replace ((8 * N.of_nat n + k) / 8) with (N.of_nat n) in H by lia.
    replace ((8 * N.of_nat n + k) mod 8) with k in H by lia. now rewrite Nat2N.id in H.
  - rewrite !small_bits; auto.
Qed.
Lemma init_wf n sz f : init_bloom n sz = Some f -> 0 < fst sz -> bwf f.
Proof.
  unfold init_bloom. destruct (n <? 1); [discriminate|]. intros E H. injection E as <-. constructor; cbn [bits bf]; auto.
  - rewrite repeat_length. lia.
  - apply Forall_forall. intros x Hx. apply repeat_spec in Hx. subst. lia.
Qed.
Lemma init_bit n sz f y : init_bloom n sz = Some f -> bit (bf f) y = false.
Proof.
  unfold init_bloom. destruct (n <? 1); [discriminate|]. intros E. injection E as <-. cbn [bf]. unfold bit.
  replace (nth (N.to_nat (y / 8)) (repeat 0 (N.to_nat (bytes_for (fst sz)))) 0) with 0; [apply N.bits_0|].
  destruct (Nat.lt_ge_cases (N.to_nat (y / 8)) (N.to_nat (bytes_for (fst sz)))).
  - symmetry. eapply repeat_spec. apply nth_In. now rewrite repeat_length.
  - rewrite nth_overflow; auto. rewrite repeat_length. auto.
Qed.

(** * C35: Bloom filters. *)
From Coq Require Import Lia.
From Verif Require Import BytesModel BytesProofs BloomModel BloomProofs.
Local Open Scope N_scope.

(** Histories of API calls on one filter. *)
Inductive bop := BAdd (keys : list (list N)) | BCheck (keys : list (list N)) | BHits (keys : list (list N)).
Fixpoint brun (f : bloom) (ops : list bop) : option bloom :=
  match ops with
  | [] => Some f
  | BAdd ks :: r => match prim_bloom_add f ks with Some (_, f') => brun f' r | None => None end
  | BCheck ks :: r => match prim_bloom_check f ks with Some (_, f') => brun f' r | None => None end
  | BHits ks :: r => match prim_bloom_hits f ks with Some (_, f') => brun f' r | None => None end
  end.
(** The keys a history has added. *)
Fixpoint added_keys (ops : list bop) : list (list N) :=
  match ops with
  | [] => []
  | BAdd ks :: r => ks ++ added_keys r
  | _ :: r => added_keys r
  end.
(** The bit numbers of a key: double hashing, written out once more. *)
Definition key_bits (nbits nhashes : N) (k : list N) : list N :=
  let a := murmurhash2 k 0x9747b28c in let b := murmurhash2 k a in
  map (fun i => ((a + (N.of_nat i * b) mod 2^32) mod 2^32) mod nbits) (seq 0 (N.to_nat nhashes)).
Lemma key_bits_positions f k : positions f k = key_bits (bits f) (hashes f) k.
Proof. unfold positions, key_bits, pos. apply map_ext. intros i. now rewrite !land_u32. Qed.

Lemma brun_spec ops : forall f, bwf f -> exists f', brun f ops = Some f' /\ bwf f' /\
  bits f' = bits f /\ hashes f' = hashes f /\ entries f' = entries f /\ adds f' = adds f /\
  forall y, bit (bf f') y = true <->
    bit (bf f) y = true \/ exists k, In k (added_keys ops) /\ In y (positions f k).
Proof.
  induction ops as [|[ks|ks|ks] r IH]; intros f W; cbn [brun added_keys].
  - exists f. do 6 (split; [now auto|]). intros y. split; auto. intros [|(k & [] & _)]; auto.
  - unfold prim_bloom_add.
    destruct (op_add f ks W) as (rv & f1 & -> & W1 & B1 & H1 & E1 & D1 & HA).
    destruct (IH f1 W1) as (f2 & -> & W2 & B2 & H2 & E2 & D2 & HY).
    exists f2. do 2 (split; [now auto|]). do 4 (split; [congruence|]).
    intros y. rewrite HY, HA. split.
    + intros [[|(k & Hk & Hy)]|(k & Hk & Hy)]; auto; right; exists k; rewrite in_app_iff; auto.
      rewrite (positions_ext f f1) in Hy by auto. auto.
    + intros [|(k & Hk & Hy)]; auto. apply in_app_iff in Hk. destruct Hk; eauto.
      right. exists k. rewrite (positions_ext f f1) by auto. auto.
  - unfold prim_bloom_check. rewrite op_check by auto. auto.
  - unfold prim_bloom_hits. rewrite op_hits by auto. auto.
Qed.
Lemma brun_present n sz f ops f' k : init_bloom n sz = Some f -> 0 < fst sz -> brun f ops = Some f' ->
  bits f' = fst sz /\ hashes f' = snd sz /\ bwf f' /\
  (present f' k = true <-> forall p, In p (key_bits (fst sz) (snd sz) k) ->
      exists k', In k' (added_keys ops) /\ In p (key_bits (fst sz) (snd sz) k')).
Proof.
  intros Ei Hs Er. pose proof (init_wf _ _ _ Ei Hs) as W.
  destruct (brun_spec ops f W) as (f2 & E2 & W2 & B2 & H2 & _ & _ & HY). rewrite Er in E2. injection E2 as <-.
  assert (Bf : bits f = fst sz /\ hashes f = snd sz).
  { unfold init_bloom in Ei. destruct (n <? 1); [discriminate|]. injection Ei as <-. auto. }
  destruct Bf as [Bb Bh]. split; [congruence|]. split; [congruence|]. split; auto.
  rewrite present_spec. rewrite key_bits_positions, B2, H2, Bb, Bh.
  split; intros H p Hp.
  - specialize (H p Hp). apply HY in H. rewrite (init_bit _ _ _ p Ei) in H. destruct H as [|(k' & Hk & Hy)]; [discriminate|].
    exists k'. split; auto. now rewrite key_bits_positions, Bb, Bh in Hy.
  - apply HY. right. destruct (H p Hp) as (k' & Hk & Hy). exists k'. split; auto. now rewrite key_bits_positions, Bb, Bh.
Qed.

(** Every operation of every history on a filter with at least one bit succeeds without
    leaving the array. *)
Theorem C35_never_faults : forall n sz f ops, init_bloom n sz = Some f -> 0 < fst sz ->
  exists f', brun f ops = Some f'.
Proof.
  intros n sz f ops Ei Hs. destruct (brun_spec ops f (init_wf _ _ _ Ei Hs)) as (f' & E & _). eauto.
Qed.

(** No false negatives: a check with some added key among the keys answers yes, and the
    hit count is at least the number of added keys asked about. *)
Theorem C35_no_false_negatives_partial : forall n sz f ops f' keys, init_bloom n sz = Some f -> 0 < fst sz ->
  brun f ops = Some f' ->
  (exists k, In k keys /\ In k (added_keys ops)) ->
  prim_bloom_check f' keys = Some (true, f').
Proof.
  intros n sz f ops f' keys Ei Hs Er (k & Hk & Ha).
  destruct (brun_present n sz f ops f' k Ei Hs Er) as (_ & _ & W & HP).
  unfold prim_bloom_check. rewrite op_check by auto.
  replace (existsb (present f') keys) with true; auto.
  symmetry. apply existsb_exists. exists k. split; auto. apply HP. intros p Hp. eauto.
Qed.
Theorem C35_hits_lower_bound : forall n sz f ops f' keys, init_bloom n sz = Some f -> 0 < fst sz ->
  brun f ops = Some f' ->
  exists c, prim_bloom_hits f' keys = Some (c, f') /\ c <= N.of_nat (length keys) /\
    N.of_nat (length (filter (fun k => if in_dec (list_eq_dec N.eq_dec) k (added_keys ops) then true else false) keys)) <= c.
Proof.
  intros n sz f ops f' keys Ei Hs Er.
  assert (W : bwf f') by apply (brun_present n sz f ops f' [] Ei Hs Er).
  unfold prim_bloom_hits. rewrite op_hits by auto. eexists. split; [reflexivity|].
  assert (HP : forall k, In k (added_keys ops) -> present f' k = true).
  { intros k Ha. apply (brun_present n sz f ops f' k Ei Hs Er). intros p Hp. eauto. }
  clear -HP. induction keys as [|k r IH]; cbn [filter length]; [lia|].
  destruct (in_dec _ k (added_keys ops)) as [Hi|Hi].
  - rewrite (HP k Hi). cbn [length]. lia.
  - destruct (present f' k); cbn [length]; lia.
Qed.

(** Exactly when a single key is reported present. *)
Theorem C35_exact : forall n sz f ops f' k, init_bloom n sz = Some f -> 0 < fst sz ->
  brun f ops = Some f' ->
  exists b, prim_bloom_check f' [k] = Some (b, f') /\
  (b = true <-> forall p, In p (key_bits (fst sz) (snd sz) k) ->
      exists k', In k' (added_keys ops) /\ In p (key_bits (fst sz) (snd sz) k')).
Proof.
  intros n sz f ops f' k Ei Hs Er.
  destruct (brun_present n sz f ops f' k Ei Hs Er) as (_ & _ & W & HP).
  unfold prim_bloom_check. rewrite op_check by auto. eexists. split; [reflexivity|].
  rewrite <- HP. cbn [existsb]. rewrite orb_false_r. destruct (present f' k); simpl; split; auto.
Qed.

(** The bit array depends only on the set of keys added: neither order, repetition nor
    intervening queries matter. *)
Theorem C35_order_independent : forall n sz f ops ops' f1 f2, init_bloom n sz = Some f -> 0 < fst sz ->
  (forall k, In k (added_keys ops) <-> In k (added_keys ops')) ->
  brun f ops = Some f1 -> brun f ops' = Some f2 -> bf f1 = bf f2.
Proof.
  intros n sz f ops ops' f1 f2 Ei Hs HS E1 E2. pose proof (init_wf _ _ _ Ei Hs) as W.
  destruct (brun_spec ops f W) as (g1 & G1 & [V1 L1 F1] & B1 & _ & _ & _ & Y1). rewrite E1 in G1. injection G1 as <-.
  destruct (brun_spec ops' f W) as (g2 & G2 & [V2 L2 F2] & B2 & _ & _ & _ & Y2). rewrite E2 in G2. injection G2 as <-.
  apply bits_eq_list; auto.
  - rewrite B1 in L1. rewrite B2 in L2. lia.
  - intros y. apply eq_true_iff_eq. rewrite Y1, Y2. split; (intros [|(k & Hk & Hy)]; [auto|]); right; exists k; split; auto; now apply HS.
Qed.

(** Adding one key: the answer says whether it was (apparently) new; the counter moves
    by one exactly then, and the second addition changes nothing. *)
Theorem C35_add_result : forall n sz f ops f1 k, init_bloom n sz = Some f -> 0 < fst sz ->
  brun f ops = Some f1 ->
  exists new f2, prim_bloom_add f1 [k] = Some (new, f2) /\
    prim_bloom_check f1 [k] = Some (negb new, f1) /\
    added f2 = added f1 + (if new then 1 else 0) /\
    prim_bloom_add f2 [k] = Some (false, f2).
Proof.
  intros n sz f ops f1 k Ei Hs Er.
  assert (W : bwf f1) by apply (brun_present n sz f ops f1 [] Ei Hs Er).
  unfold prim_bloom_add, prim_bloom_check. cbn [bloom_op].
  destruct (check_add_spec f1 k true W) as (rv & f2 & E & W2 & B2 & H2 & E2 & D2 & Hrv & HP & _ & Hc & HA). rewrite E.
  destruct (check_add_spec f1 k false W) as (rv' & f3 & E' & _ & _ & _ & _ & _ & Hrv' & HP' & HN & _). rewrite E'.
  assert (rv' = rv) as -> by (destruct Hrv as [->| ->], Hrv' as [->| ->]; auto; [discriminate (proj2 HP (proj1 HP' eq_refl))|discriminate (proj2 HP' (proj1 HP eq_refl))]).
  rewrite (HN eq_refl). exists (rv =? 0), f2. split; auto. split; auto.
  rewrite (Hc eq_refl). split; [destruct Hrv as [->| ->]; simpl; lia|].
  destruct (check_add_spec f2 k true W2) as (rv2 & f4 & E4 & W4 & B4 & H4 & E5 & D4 & Hrv2 & HP2 & _ & Hc2 & HA2). rewrite E4.
  assert (rv2 = 1) as ->.
  { apply HP2. intros p Hp. apply HA; auto. right. now rewrite (positions_ext f1 f2) in Hp by auto. }
  assert (f4 = f2); [|subst; reflexivity].
  destruct f2 as [a2 d2 e2 b2 h2 bf2], f4 as [a4 d4 e4 b4 h4 bf4].
  cbn [adds added entries bits hashes] in *. specialize (Hc2 eq_refl). cbn [bf] in *.
  assert (d4 = d2) by lia. clear Hc2. subst. f_equal.
  destruct W2 as [V2 L2 F2], W4 as [V4 L4 F4]. cbn [bits bf] in *. apply bits_eq_list; auto; [lia|].
  intros y. apply eq_true_iff_eq. rewrite (HA2 eq_refl). split; auto. intros [|Hy]; auto.
  apply (HA eq_refl). right. rewrite (positions_ext f1 _) in Hy; auto.
Qed.

(** A filter imported from the bytes of another one with the same sizes answers every
    later history of calls in the same way. *)
Theorem C35_import_equivalent : forall n sz f ops f1 total, init_bloom n sz = Some f -> 0 < fst sz ->
  brun f ops = Some f1 ->
  exists g, import_bloom total (entries f1) sz (bf f1) = Some g /\ adds g = total /\
  forall later k, exists f2 g2, brun f1 later = Some f2 /\ brun g later = Some g2 /\ bf f2 = bf g2 /\
    exists b, prim_bloom_check f2 [k] = Some (b, f2) /\ prim_bloom_check g2 [k] = Some (b, g2).
Proof.
  intros n sz f ops f1 total Ei Hs Er.
  destruct (brun_present n sz f ops f1 [] Ei Hs Er) as (B & H & W & _).
  pose proof (init_wf _ _ _ Ei Hs) as W0.
  destruct (brun_spec ops f W0) as (g1 & G1 & _ & _ & _ & En & _). rewrite Er in G1. injection G1 as <-.
  assert (E0 : entries f = n /\ (n <? 1) = false).
  { unfold init_bloom in Ei. destruct (n <? 1); [discriminate|]. injection Ei as <-. auto. }
  destruct E0 as [E0 En0]. destruct W as [V L F].
  unfold import_bloom. rewrite En, E0, En0, <- B, L, N.eqb_refl. cbn [negb].
  eexists. split; [reflexivity|]. split; [reflexivity|]. intros later k.
  set (g := {| adds := total; added := 0; entries := n; bits := bits f1; hashes := snd sz; bf := bf f1 |}).
  assert (Wg : bwf g) by (constructor; auto).
  destruct (brun_spec later f1 (Build_bwf _ V L F)) as (f2 & E2 & W2 & B2 & H2 & _ & _ & Y2).
  destruct (brun_spec later g Wg) as (g2 & G2 & Wg2 & Bg2 & Hg2 & _ & _ & Yg2).
  assert (P : forall k, positions g k = positions f1 k) by (intros; apply positions_ext; auto; cbn; congruence).
  assert (Ebf : bf f2 = bf g2).
  { destruct W2 as [V2 L2 F2], Wg2 as [Vg Lg Fg]. apply bits_eq_list; auto.
    - rewrite B2 in L2. rewrite Bg2 in Lg. cbn [bits g] in Lg. lia.
    - intros y. apply eq_true_iff_eq. rewrite Y2, Yg2. split; (intros [|(k' & Hk & Hy)]; [left; assumption|right; exists k'; split; auto]).
      + now rewrite P. + now rewrite P in Hy. }
  exists f2, g2. do 3 (split; [assumption|]).
  unfold prim_bloom_check. rewrite !op_check by auto. eexists. split; [reflexivity|].
  cbn [existsb]. unfold present. rewrite <- Ebf.
  rewrite (positions_ext f2 g2 k); [reflexivity| |]; rewrite ?Bg2, ?Hg2, ?B2, ?H2; cbn [bits hashes g]; congruence.
Qed.

(** ** Example: 100 bits, 7 hashes; keys "ab", "abcde" and the empty string. *)
Example C35_ex : exists f f1, init_bloom 10 (100, 7) = Some f /\
  brun f [BAdd [[97; 98]]; BCheck [[1]; [2]]; BAdd [[97; 98; 99; 100; 101]; []]] = Some f1 /\
  added f1 = 3 /\ prim_bloom_check f1 [[120; 121]; [97; 98; 99; 100; 101]] = Some (true, f1) /\
  prim_bloom_check f1 [[120; 121]] = Some (false, f1).
Proof. eexists. eexists. split; [reflexivity|]. split; [vm_compute; reflexivity|]. split; [vm_compute; reflexivity|]. split; vm_compute; reflexivity. Qed.

(** ** Findings *)
(** A filter whose computed number of bits is 0 (for instance entries 1, error 0.9:
    one hash function) is created, and the first operation divides by zero. *)
Theorem C35_zero_bits_refuted : exists f, init_bloom 1 (0, 1) = Some f /\
  forall k add check, bloom_op f [k] add check = None.
Proof. eexists. split; [reflexivity|]. intros k add check. reflexivity. Qed.
(** bloom/add! answers true for a new key but false for two new keys. *)
Theorem C35_add_choice_result_refuted : exists f k1 k2 f1 f2, init_bloom 10 (100, 7) = Some f /\
  prim_bloom_check f [k1; k2] = Some (false, f) /\
  prim_bloom_add f [k1] = Some (true, f1) /\ prim_bloom_add f [k1; k2] = Some (false, f2).
Proof.
  eexists. exists [97], [98]. eexists. eexists. split; [reflexivity|]. split; [|split]; vm_compute; reflexivity.
Qed.
(** Restoring what was dumped reads a fixnum as a flonum and a flonum as a packet, for
    every filter. *)
Theorem C35_restore_refuted : forall sizes f err, restore_bloom sizes (dump_bloom f err) = RUB.
Proof. reflexivity. Qed.

Print Assumptions C35_never_faults.
Print Assumptions C35_no_false_negatives_partial.
Print Assumptions C35_hits_lower_bound.
Print Assumptions C35_exact.
Print Assumptions C35_order_independent.
Print Assumptions C35_add_result.
Print Assumptions C35_import_equivalent.
Print Assumptions C35_zero_bits_refuted.
Print Assumptions C35_add_choice_result_refuted.
Print Assumptions C35_restore_refuted.

(** Bloom filters of at least one bit, whatever is added in whatever order: every key that was
    added is found, alone or among others; adding says whether the key was found before, and
    counts it if not; a key is found exactly if all its bits were set by keys that were added;
    and a filter that was written out and read in goes on like the original. *)
Theorem C84_bloom : forall n sz f ops, init_bloom n sz = Some f -> 0 < fst sz ->
  exists f', brun f ops = Some f' /\
    (forall keys, (exists k, In k keys /\ In k (added_keys ops)) -> prim_bloom_check f' keys = Some (true, f')) /\
    (forall k, exists b, prim_bloom_check f' [k] = Some (b, f') /\
      (b = true <-> forall p, In p (key_bits (fst sz) (snd sz) k) ->
         exists k', In k' (added_keys ops) /\ In p (key_bits (fst sz) (snd sz) k'))) /\
    (forall k, exists new f2, prim_bloom_add f' [k] = Some (new, f2) /\ prim_bloom_check f' [k] = Some (negb new, f') /\
      added f2 = added f' + (if new then 1 else 0) /\ prim_bloom_add f2 [k] = Some (false, f2)) /\
    (forall ops' f2, (forall k, In k (added_keys ops) <-> In k (added_keys ops')) -> brun f ops' = Some f2 -> bf f' = bf f2) /\
    (forall total, exists g, import_bloom total (entries f') sz (bf f') = Some g /\ adds g = total /\
      forall later k, exists f2 g2, brun f' later = Some f2 /\ brun g later = Some g2 /\ bf f2 = bf g2 /\
        exists b, prim_bloom_check f2 [k] = Some (b, f2) /\ prim_bloom_check g2 [k] = Some (b, g2)).
Proof.
  intros n sz f ops I Z. destruct (C35_never_faults n sz f ops I Z) as (f' & R). exists f'. split; [exact R|].
  split; [intros keys K; exact (C35_no_false_negatives_partial n sz f ops f' keys I Z R K)|].
  split; [intros k; exact (C35_exact n sz f ops f' k I Z R)|].
  split; [intros k; exact (C35_add_result n sz f ops f' k I Z R)|].
  split; [intros ops' f2 E R2; exact (C35_order_independent n sz f ops ops' f' f2 I Z E R R2)|].
  intros total. exact (C35_import_equivalent n sz f ops f' total I Z R).
Qed.
Example C84_bloom_case : exists f f1, init_bloom 10 (100, 7) = Some f /\ 0 < fst (100, 7) /\
  brun f [BAdd [[97; 98]]; BCheck [[1]; [2]]; BAdd [[97; 98; 99; 100; 101]; []]] = Some f1 /\
  prim_bloom_check f1 [[97; 98]] = Some (true, f1).
Proof. eexists. eexists. split; [reflexivity|]. split; [reflexivity|]. split; [vm_compute; reflexivity|]. vm_compute; reflexivity. Qed.
Print Assumptions C84_bloom.

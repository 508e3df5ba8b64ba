(** The simulation of every allowed operation, and of histories. *)

From Coq Require Import List Arith ZArith NArith Bool Lia ZifyBool ZifyNat.
Import ListNotations.
From Verif Require Import StreamModel StreamSpec StreamProofs StreamProofs2.

Lemma goto_goto : forall p n m n' m', goto (goto p n m) n' m' = goto p n' m'.
Proof. reflexivity. Qed.

Lemma size_goto : forall p n m, size (goto p n m) = size p.
Proof. reflexivity. Qed.

Lemma R_upgrade : forall p s m, R p s -> mode_ok m s -> R (MkP p.(cont) p.(pos) m p.(stale)) s.
Proof. intros p s m HR H. exact (R_goto p s m HR H). Qed.

(** Weakening what is known about the mode. *)
Lemma mode_weak : forall p s m, R p s ->
  (p.(am) = m \/ (p.(am) = RClean /\ m = RBuf) \/ (p.(am) = WClean /\ m = WBuf)
   \/ (p.(am) <> RBuf /\ m = Unk)) -> mode_ok m s.
Proof.
  intros p s m HR H. destruct HR as [_ _ _ _ _ _ M].
  destruct H as [<-|[[E ->]|[[E ->]|[E ->]]]]; auto; try (rewrite E in M; simpl in *; tauto).
  destruct (am p); simpl in *; auto; try tauto; try congruence; try (destruct M; congruence).
Qed.

Lemma not_rbuf_clean : forall p s, R p s -> p.(am) <> RBuf -> s.(wrt) = false -> s.(buf) = [].
Proof.
  intros p s HR H W. destruct HR as [_ _ _ _ _ _ M].
  destruct (am p); simpl in M; try tauto; try congruence; try (destruct M; congruence).
Qed.

Lemma reading_dir : forall p s, R p s -> reading p.(am) = true -> s.(wrt) = false.
Proof. intros p s HR H. destruct HR as [_ _ _ _ _ _ M]. destruct (am p); simpl in *; try tauto; congruence. Qed.

Lemma writing_dir : forall p s, R p s -> writing p.(am) = true -> s.(wrt) = true.
Proof. intros p s HR H. destruct HR as [_ _ _ _ _ _ M]. destruct (am p); simpl in *; try tauto; congruence. Qed.

Lemma aseek_ok : forall p s z (f : stream -> Z -> stream * option Z),
  R p s -> (z <= Z.of_nat (size p))%Z ->
  (f = setpos \/ f = setpos_slow) ->
  opt_out (snd (f s z)) = snd (aseek p z) /\ R (fst (aseek p z)) (fst (f s z)).
Proof.
  intros p s z f HR H Hf. unfold aseek.
  destruct (Z.ltb_spec z 0).
  - destruct (setpos_neg s z H0) as [E1 E2].
    destruct Hf as [-> | ->]; rewrite ?E1, ?E2; simpl; auto.
  - simpl. destruct Hf as [-> | ->].
    + destruct (setpos_ok p s z HR) as [A B]; [lia|]. rewrite A. auto.
    + destruct (setpos_slow_ok p s z HR) as [A B]; [lia|]. rewrite A. auto.
Qed.

Lemma writebuf_ok : forall p s, R p s -> p.(am) <> RBuf ->
  R (goto p p.(pos) (to_write p.(am))) (dir_write s).
Proof.
  intros p s HR Hm. pose proof (dir_write_ok p s HR) as H.
  destruct (wrt s) eqn:W; auto.
  rewrite (clean_pos p s HR W (not_rbuf_clean p s HR Hm W)) in H. exact H.
Qed.

(** kno_start_write. *)
Lemma start_write_ok : forall p s z, R p s -> allowed p (StartWrite z) ->
  R (fst (astep p (StartWrite z))) (start_write s z).
Proof.
  intros p s z HR [Hz Hs]. simpl. unfold start_write.
  pose proof (dir_write_ok p s HR) as H1.
  set (q := goto p (if wrt s then pos p else fpos s) (to_write (am p))) in *.
  destruct (Z.ltb_spec z 0).
  - destruct (endpos_ok q (dir_write s) H1) as (_ & B & _).
    + simpl. destruct (am p); discriminate.
    + simpl. auto.
    + exact B.
  - destruct (setpos_ok q (dir_write s) z H1) as [_ B].
    + unfold q. rewrite size_goto. lia.
    + exact B.
Qed.

Lemma direct_ok : forall p s bs, R p s -> s.(wrt) = true -> s.(buf) = [] ->
  snd (stream_write s bs) = OInt (Z.of_nat (length bs))
  /\ R (MkP (splice p.(cont) p.(pos) bs) (p.(pos) + length bs) WClean
            (p.(stale) || (size p <? p.(pos) + length bs))) (fst (stream_write s bs)).
Proof.
  intros p s bs HR W B. unfold stream_write.
  assert (DW : dir_write s = s) by (unfold dir_write; rewrite W; reflexivity).
  rewrite DW, DW.
  assert (G : getpos s = Z.of_nat (pos p)) by (apply getpos_ok; auto). rewrite G.
  assert (E : setpos s (Z.of_nat (pos p)) = (s, Some (Z.of_nat (pos p)))).
  { unfold setpos. rewrite W. cbn [negb andb].
    destruct (Z.ltb_spec (Z.of_nat (pos p)) 0); [lia|].
    rewrite G, Z.eqb_refl. reflexivity. }
  rewrite E. cbn [fst].
  pose proof HR as [r1 r2 r3 r4 r5 r6 r7]. unfold dir_ok in r6. rewrite W in r6.
  destruct r6 as (D1 & D2 & D3). rewrite B in D2, D3. simpl in D2, D3.
  destruct bs as [|b bs].
  - cbn [writeall length]. rewrite Z.add_0_r, E. cbn [fst snd]. split; [reflexivity|].
    simpl. rewrite Nat.add_0_r.
    constructor; simpl; auto.
    + intros S0. apply orb_false_iff in S0. apply r5. tauto.
    + unfold dir_ok. simpl. rewrite W, B. simpl. repeat split; auto; try lia.
  - set (w := b :: bs) in *. assert (Hw : w <> []) by discriminate.
    assert (Lw : 1 <= length w) by (simpl; lia). clearbody w.
    rewrite (writeall_ok s w Hw r1). rewrite r2.
    set (s3 := set_disk s (splice (disk s) (fpos s) w) (fpos s + length w)).
    assert (E2 : setpos s3 (Z.of_nat (pos p) + Z.of_nat (length w))
                 = (seek_to s3 (fpos s + length w), Some (Z.of_nat (pos p) + Z.of_nat (length w))%Z)).
    { unfold setpos. unfold s3 at 1 2 3. cbn [wrt set_disk]. rewrite W. cbn [negb andb].
      destruct (Z.ltb_spec (Z.of_nat (pos p) + Z.of_nat (length w)) 0); [lia|].
      assert (G3 : getpos s3 = Z.of_nat (pos p)) by exact G. rewrite G3.
      destruct (Z.eqb_spec (Z.of_nat (pos p)) (Z.of_nat (pos p) + Z.of_nat (length w))); [lia|].
      unfold setpos_slow. destruct (Z.ltb_spec (Z.of_nat (pos p) + Z.of_nat (length w)) 0); [lia|].
      unfold s3 at 1 2 3. cbn [wrt set_disk]. rewrite W. cbn [negb andb].
      unfold flush, s3. cbn [wrt set_disk buf]. rewrite W, B. cbn [negb].
      do 2 f_equal. lia. }
    rewrite E2. cbn [fst snd]. split; [reflexivity|].
    assert (Hln : length (splice (disk s) (fpos s) w) = Nat.max (length (disk s)) (fpos s + length w)).
    { rewrite len_splice. destruct w; [congruence|reflexivity]. }
    constructor; simpl; auto; try lia.
    + intros S0. apply orb_false_iff in S0. destruct S0 as [S0 S1].
      rewrite (r5 S0). unfold size in S1. rewrite D2 in S1.
      destruct (Nat.ltb_spec (length (disk s)) (pos p + length w)); [discriminate|]. lia.
    + unfold dir_ok. simpl. rewrite W, B. simpl. repeat split; auto; try lia.
      rewrite D2. f_equal. lia.
Qed.

Lemma write_at_ok : forall p s bs z, R p s -> allowed p (WriteAt bs z) ->
  snd (write_at s bs z) = snd (astep p (WriteAt bs z))
  /\ R (fst (astep p (WriteAt bs z))) (fst (write_at s bs z)).
Proof.
  intros p s bs z HR (H8 & Hz & Hp & Hn). unfold write_at.
  set (o := if (0 <=? z)%Z then Z.to_nat z else pos p).
  assert (Q : exists s1, (if (0 <=? z)%Z then start_write s z else dir_write s) = s1
      /\ R (goto p o WClean) s1 /\ wrt s1 = true /\ buf s1 = []).
  { eexists. split; [reflexivity|]. unfold o. destruct (Z.leb_spec 0 z) as [Z0|Z0].
    - specialize (Hp Z0).
      assert (SW : R (fst (astep p (StartWrite z))) (start_write s z)).
      { apply start_write_ok; auto. simpl. split; [lia|]. lia. }
      simpl in SW. destruct (Z.ltb_spec z 0); [lia|].
      assert (W1 : wrt (start_write s z) = true).
      { apply (writing_dir _ _ SW). simpl. destruct (am p); reflexivity. }
      assert (B1 : buf (start_write s z) = []).
      { destruct (am p) eqn:M; simpl in SW;
          try (destruct SW as [_ _ _ _ _ _ M1]; simpl in M1; tauto).
        - (* WBuf *)
          assert (W : wrt s = true) by (apply (writing_dir p s HR); rewrite M; reflexivity).
          unfold start_write. destruct (Z.ltb_spec z 0); [lia|].
          unfold dir_write. rewrite W.
          apply (setpos_flushes p); auto; lia.
        - (* Unk *)
          unfold start_write. destruct (Z.ltb_spec z 0); [lia|].
          destruct (wrt s) eqn:W.
          + unfold dir_write. rewrite W. apply (setpos_flushes p); auto; lia.
          + assert (B : buf s = []) by (apply (not_rbuf_clean p s); auto; congruence).
            assert (RC : R (goto p (pos p) RClean) s) by (apply R_goto; simpl; auto).
            pose proof (dir_write_ok _ _ RC) as RW.
            rewrite W in RW. simpl in RW. rewrite (clean_pos p s HR W B) in RW.
            destruct (setpos_ok _ (dir_write s) z RW) as [_ RZ].
            { unfold size in *. simpl in *. lia. }
            destruct RZ as [_ _ _ _ _ _ M1]. simpl in M1. tauto. }
      split; [|auto].
      apply (R_goto (goto p (Z.to_nat z) (to_write (am p)))); auto. simpl. auto.
    - specialize (Hn Z0).
      assert (RW : R (goto p (pos p) (to_write (am p))) (dir_write s)).
      { apply writebuf_ok; auto. destruct Hn as [-> | ->]; discriminate. }
      assert (E : to_write (am p) = WClean) by (destruct Hn as [-> | ->]; reflexivity).
      rewrite E in RW. split; [exact RW|]. destruct RW as [_ _ _ _ _ _ M1]. exact M1. }
  destruct Q as (s1 & -> & R1 & W1 & B1). rewrite W1, B1. cbn [length].
  pose proof R1 as R1'. destruct R1' as [r1 r2 r3 r4 r5 r6 r7].
  destruct (Z.ltb_spec (blen s1) (Z.of_nat 0 + Z.of_nat (length bs))); [lia|].
  cbn [fst snd]. rewrite <- B1.
  assert (R2 : R (pending (goto p o WClean) bs WBuf) (set_buf s1 (buf s1 ++ bs) (pt s1))).
  { apply append_ok; auto. rewrite B1. simpl length.
    unfold dir_ok in r6. rewrite W1 in r6. lia. }
  split; [reflexivity|].
  assert (Hm : mode_ok WClean (set_buf (set_buf s1 (buf s1 ++ bs) (pt s1)) [] 0)) by (simpl; auto).
  destruct (flush_ok _ _ WClean R2) as (_ & F & _); auto.
  { simpl. congruence. }
  simpl. fold o. rewrite put_splice. exact F.
Qed.

Lemma step_ok : forall p s o, R p s -> allowed p o ->
  snd (step s o) = snd (astep p o) /\ R (fst (astep p o)) (fst (step s o)).
Proof.
  intros p s o HR HA. destruct o; simpl in HA.
  - (* GetPos *) simpl. rewrite (getpos_ok p s HR). auto.
  - (* SetPos *) cbn [step astep]. destruct (aseek_ok p s p0 setpos HR HA) as [A B]; auto.
    destruct (setpos s p0). auto.
  - (* SetPosSlow *) cbn [step astep]. destruct (aseek_ok p s p0 setpos_slow HR HA) as [A B]; auto.
    destruct (setpos_slow s p0). auto.
  - (* MovePos *) cbn [step astep]. unfold movepos. rewrite (getpos_ok p s HR).
    destruct (aseek_ok p s (Z.of_nat (pos p) + d) setpos HR HA) as [A B]; auto.
    destruct (setpos s (Z.of_nat (pos p) + d)). auto.
  - (* EndPos *) cbn [step astep]. destruct HA as [HA1 HA2].
    destruct (endpos_ok p s HR HA1 HA2) as (A & B & _).
    destruct (endpos s). simpl in *. subst. auto.
  - (* EndPosSlow *) cbn [step astep].
    destruct (endpos_slow_ok p s HR) as (A & B & _).
    destruct (endpos_slow s). simpl in *. subst. auto.
  - (* StartRead *) cbn [step astep fst snd]. split; auto. destruct HA as [HA1 HA2].
    unfold start_read. pose proof (dir_read_ok p s HR) as H1.
    destruct (Z.ltb_spec p0 0).
    + assert (M : maxp (dir_read s) = size p).
      { pose proof (size_ok _ _ H1) as HS. rewrite (dir_read_dir s p HR) in HS.
        rewrite size_goto in HS. rewrite HS. destruct H1 as [_ _ _ _ S1 _ _]. apply S1. simpl. auto. }
      rewrite M. destruct (setpos_ok _ (dir_read s) (Z.of_nat (size p) + p0) H1) as [_ B].
      { rewrite size_goto. lia. }
      exact B.
    + destruct (setpos_ok _ (dir_read s) p0 H1) as [_ B].
      { rewrite size_goto. lia. }
      exact B.
  - (* StartReadSlow *) cbn [step astep fst snd]. split; auto. destruct HA as [HA1 HA2].
    unfold start_read_slow. pose proof (dir_read_ok p s HR) as H1.
    destruct (Z.ltb_spec p0 0).
    + destruct (HA2 H) as [H2 H3].
      destruct (endpos_ok _ (dir_read s) H1) as (_ & B & _); auto.
      { simpl. destruct (am p); simpl; congruence. }
    + destruct (setpos_ok _ (dir_read s) p0 H1) as [_ B].
      { rewrite size_goto. lia. }
      exact B.
  - (* StartWrite *) cbn [step fst snd]. split; [reflexivity|]. apply start_write_ok; auto.
  - (* ReadBuf *) simpl. split; auto. apply dir_read_ok; auto.
  - (* WriteBuf *) simpl. split; auto. apply writebuf_ok; auto.
  - (* Read *) cbn [step astep]. destruct (am p) eqn:M; cbn [writing]; try congruence;
      try (assert (W : wrt s = true) by (apply (writing_dir p s HR); rewrite M; reflexivity);
           unfold read_bytes; rewrite W; simpl; auto);
      (assert (W : wrt s = false) by (apply (reading_dir p s HR); rewrite M; reflexivity);
       pose proof (read_ok p s n HR W) as H; simpl in H;
       destruct (Nat.leb_spec (pos p + n) (size p)); simpl;
       [rewrite bytes_slice by (left; unfold size in *; auto); auto | auto]).
  - (* Probe *) cbn [step astep]. destruct (am p) eqn:M; cbn [writing]; try congruence;
      try (assert (W : wrt s = true) by (apply (writing_dir p s HR); rewrite M; reflexivity);
           unfold probe_byte; rewrite W; simpl; auto);
      (assert (W : wrt s = false) by (apply (reading_dir p s HR); rewrite M; reflexivity);
       destruct (probe_ok p s HR W) as [H1 H2]; simpl in H1, H2;
       destruct (Nat.leb_spec (pos p + 1) (size p)), (Nat.ltb_spec (pos p) (size p)); simpl; try lia;
       [rewrite bytes_slice by (left; unfold size in *; auto); auto | auto]).
  - (* Write *) cbn [step astep]. destruct (am p) eqn:M; cbn [writing]; try congruence;
      try (assert (W : wrt s = false) by (apply (reading_dir p s HR); rewrite M; reflexivity);
           unfold write_bytes; rewrite W; simpl; auto);
      (assert (W : wrt s = true) by (apply (writing_dir p s HR); rewrite M; reflexivity);
       destruct (write_ok p s bs HR W) as [A B]; rewrite put_splice; auto).
  - (* Flush *) cbn [step astep fst snd]. split; auto.
    destruct (flush_ok p s (flushed (am p)) HR) as (_ & B & _); auto.
    + intros W. apply (not_rbuf_clean p s); auto.
    + destruct HR as [_ _ _ _ _ _ M]. destruct (am p); simpl in *; tauto.
  - (* SetBuf *) cbn [step astep fst snd]. split; auto. destruct HA as [HA1 HA2].
    destruct (flush_ok p s (flushed (am p)) HR) as (_ & B & C & D & _); auto.
    + intros W. apply (not_rbuf_clean p s); auto.
    + destruct HR as [_ _ _ _ _ _ M]. destruct (am p); simpl in *; tauto.
    + unfold setbufsize. set (s1 := fst (flush s)) in *. clearbody s1.
      destruct B as [r1 r2 r3 r4 r5 r6 r7].
      constructor; simpl; auto.
      unfold dir_ok in *. simpl in *. destruct (wrt s1) eqn:W1; auto.
      rewrite C in *. simpl in *. destruct r6 as (E1 & E2 & E3).
      repeat split; auto; destruct (Z.ltb_spec (lim s1) n); lia.
  - (* ReadBlock *) cbn [step astep]. unfold read_block. cbv zeta.
    set (m := match am p with WBuf => Unk | WClean => if pos p <? o + n then RClean else WClean | m => m end).
    set (s1 := if wrt s && (fpos s <? o + n) then dir_read s else s).
    assert (R1 : R (goto p (pos p) m) s1
                 /\ ((fpos s1 <= length (disk s1) /\ wrt s1 = true /\ o + n <= fpos s1) \/ wrt s1 = false)).
    { unfold s1. destruct (wrt s) eqn:W; cbn [andb].
      - destruct (Nat.ltb_spec (fpos s) (o + n)) as [L|L].
        + pose proof (dir_read_ok p s HR) as H1. pose proof (dir_read_dir s p HR) as W1.
          assert (TR : to_read (am p) = RClean).
          { destruct HR as [_ _ _ _ _ _ M]. destruct (am p); simpl in *; auto; try congruence; try (destruct M; congruence). }
          rewrite TR in H1. split; [|auto].
          destruct H1 as [q1 q2 q3 q4 q5 q6 q7]. constructor; auto. simpl in q7. destruct q7 as [q7 q8].
          unfold m. simpl. destruct (am p) eqn:M; simpl in TR; try discriminate; simpl; auto.
          pose proof (writing_dir p s HR) as _.
          assert (buf s = []) by (destruct HR as [_ _ _ _ _ _ MM]; rewrite M in MM; simpl in MM; tauto).
          assert (fpos s = pos p).
          { destruct HR as [_ _ _ _ _ DD _]. unfold dir_ok in DD. rewrite W, H in DD. simpl in DD. lia. }
          destruct (Nat.ltb_spec (pos p) (o + n)); [simpl; auto|lia].
        + split; [|left; destruct HR; repeat split; auto].
          apply R_goto; auto. pose proof HR as [_ _ _ _ _ DD MM]. unfold m.
          destruct (am p) eqn:M; simpl in *; auto; try congruence; try (destruct MM; congruence).
          unfold dir_ok in DD. rewrite W in DD. destruct MM as [M1 M2]. rewrite M2 in DD. simpl in DD.
          destruct (Nat.ltb_spec (pos p) (o + n)); [lia|simpl; auto].
      - split; [|auto]. apply R_goto; auto. pose proof HR as [_ _ _ _ _ DD MM]. unfold m.
        destruct (am p) eqn:M; simpl in *; auto; try congruence; try (destruct MM; congruence). }
    destruct R1 as [R1 C]. clearbody s1 m. pose proof R1 as [q1 q2 q3 q4 q5 q6 q7].
    unfold dir_ok in q6. simpl in q6.
    assert (SZ : (n =? 0) || (o + n <=? length (disk s1)) = (n =? 0) || (o + n <=? size p)).
    { pose proof (size_ok _ _ R1) as HS. rewrite size_goto in HS. rewrite HS.
      destruct C as [(C1 & C2 & C3)|C]; [|rewrite C; reflexivity].
      rewrite C2. destruct (buf s1); auto.
      f_equal. destruct (Nat.leb_spec (o + n) (length (disk s1))),
        (Nat.leb_spec (o + n) (Nat.max (length (disk s1)) (fpos s1 + length (n0 :: l)))); lia. }
    rewrite SZ. destruct ((n =? 0) || (o + n <=? size p)) eqn:Y; cbn [fst snd]; split; auto.
    f_equal. rewrite bytes_slice.
    2:{ apply orb_true_iff in Y. destruct Y as [Y|Y]; [right; apply Nat.eqb_eq in Y; auto|left; apply Nat.leb_le in Y; auto]. }
    destruct C as [(C1 & C2 & C3)|C].
    + rewrite C2 in q6. destruct q6 as (_ & -> & _). symmetry. apply slice_splice_below; auto.
    + rewrite C in q6. destruct q6 as (_ & _ & _ & -> & _). reflexivity.
  - (* ReadAt *) cbn [step astep]. destruct HA as (H1 & H2 & H3 & H4). unfold read_at.
    assert (E : disk s = cont p).
    { pose proof HR as [_ _ _ _ _ DD MM]. unfold dir_ok in DD.
      destruct (am p); simpl in MM; try congruence.
      - destruct MM as [M1 M2]. rewrite M1 in DD. destruct DD as (_ & _ & _ & D & _). auto.
      - rewrite MM in DD. destruct DD as (_ & _ & _ & D & _). auto.
      - destruct MM as [M1 M2]. rewrite M1, M2 in DD. destruct DD as (_ & D & _). auto. }
    rewrite E. fold (size p).
    destruct (Z.leb_spec 0 p0); [|lia]. destruct (Nat.leb_spec (Z.to_nat p0 + n) (size p)); [|lia].
    simpl. rewrite bytes_slice by (left; auto). auto.
  - (* WriteAt *) apply write_at_ok; auto.
  - (* DirectWrite *) cbn [step astep].
    assert (RW : R (goto p (pos p) (to_write (am p))) (dir_write s)).
    { apply writebuf_ok; auto. destruct HA as [-> | ->]; discriminate. }
    assert (E : to_write (am p) = WClean) by (destruct HA as [-> | ->]; reflexivity).
    rewrite E in RW.
    assert (EW : stream_write s bs = stream_write (dir_write s) bs).
    { unfold stream_write.
      assert (DD : dir_write (dir_write s) = dir_write s).
        { assert (Q : wrt (dir_write s) = true) by (destruct RW as [_ _ _ _ _ _ M]; simpl in M; tauto).
          unfold dir_write at 1. rewrite Q. reflexivity. }
      rewrite !DD. reflexivity. }
    rewrite EW.
    assert (Q : wrt (dir_write s) = true /\ buf (dir_write s) = []) by (destruct RW as [_ _ _ _ _ _ M]; simpl in M; tauto).
    destruct (direct_ok _ (dir_write s) bs RW) as [A B]; try tauto.
    rewrite put_splice. cbn [fst snd]. split; auto.
  - (* DirectRead *) cbn [step astep]. destruct HA as [H1 H2]. unfold stream_read.
    pose proof (dir_read_ok p s HR) as HD. rewrite (getpos_ok p s HR).
    assert (HM : to_read (am p) = RClean) by (destruct (am p); simpl; congruence).
    rewrite HM in HD.
    assert (PZ : pos p <= size p) by lia.
    destruct (setpos_ok _ (dir_read s) (Z.of_nat (pos p)) HD) as [_ B].
    { rewrite size_goto. lia. }
    rewrite goto_goto, Nat2Z.id in B. cbn [am goto] in B.
    set (s1 := fst (setpos (dir_read s) (Z.of_nat (pos p)))) in *. clearbody s1.
    pose proof B as [q1 q2 q3 q4 q5 q6 q7]. simpl in q7. destruct q7 as [W1 B1].
    pose proof (clean_pos _ _ B W1 B1) as FP. simpl in FP.
    pose proof (size_ok _ _ B) as HS. rewrite W1 in HS. rewrite size_goto in HS.
    destruct (read_loop_ok n s1 n []) as (s' & K); simpl; try lia.
    destruct K as (-> & K1 & K2 & K3 & K4 & K5 & K6 & K7 & K8 & K9 & K10). simpl in *.
    rewrite Nat.sub_0_r in *.
    unfold dir_ok in q6. simpl in q6. rewrite W1 in q6. destruct q6 as (_ & _ & _ & q6 & _).
    split.
    + rewrite FP, <- q6. rewrite bytes_slice; auto.
    + assert (PT : pt s1 = 0).
      { destruct B as [_ _ _ _ _ DD _]. unfold dir_ok in DD. rewrite W1, B1 in DD. simpl in DD. lia. }
      constructor; simpl.
      * congruence.
      * exact K2.
      * rewrite K1, K3. lia.
      * rewrite K9. exact q4.
      * intros S0. rewrite K10, K1. auto.
      * unfold dir_ok. simpl. rewrite K6, W1, K4, B1, K5, PT. simpl.
        repeat split; try lia; congruence.
      * split; congruence.
  - contradiction.
Qed.

Lemma run_ok : forall l p s, R p s -> disciplined p l ->
  snd (run s l) = snd (arun p l) /\ R (fst (arun p l)) (fst (run s l)).
Proof.
  induction l as [|o l IH]; intros p s HR HD; simpl; auto.
  destruct HD as [HA HD]. destruct (step_ok p s o HR HA) as [A B].
  destruct (step s o) as [s1 r1]. destruct (astep p o) as [p1 r2]. simpl in *. subst r2.
  destruct (IH p1 s1 B HD) as [C D].
  destruct (run s1 l). destruct (arun p1 l). simpl in *. subst. auto.
Qed.

Lemma close_ok : forall p s, R p s -> close_stream s = p.(cont).
Proof.
  intros p s HR. unfold close_stream. destruct (wrt s) eqn:W.
  - destruct (flush_ok p s Unk HR) as (_ & _ & _ & _ & H & _); auto; try congruence.
    simpl; auto.
  - destruct HR as [_ _ _ _ _ D _]. unfold dir_ok in D. rewrite W in D. symmetry. tauto.
Qed.

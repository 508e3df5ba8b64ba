(** Reading and writing through the buffer and around it, and the simulation of
    every allowed operation. *)

From Coq Require Import List Arith ZArith NArith Bool Lia ZifyBool ZifyNat.
Import ListNotations.
From Verif Require Import StreamModel StreamSpec StreamProofs.

(** ** Growing *)

Lemma double_ge : forall fuel step cur need,
  (0 < cur)%Z -> (0 < step)%Z -> (need <= cur + Z.of_nat fuel)%Z ->
  (need <= double_to fuel step cur need)%Z /\ (cur <= double_to fuel step cur need)%Z.
Proof.
  induction fuel as [|f IH]; intros step cur need Hc Hs Hf; simpl.
  - lia.
  - destruct (Z.ltb_spec cur need); [|lia].
    set (c := if (step <=? cur)%Z then (cur + step)%Z else (cur * 2)%Z).
    assert (cur + 1 <= c)%Z by (unfold c; destruct (Z.leb_spec step cur); lia).
    destruct (IH step c need); lia.
Qed.

(** ** Filling *)

Lemma fill_loop_ok : forall fuel s need req got,
  s.(off) = s.(fpos) -> s.(fpos) <= length s.(disk) -> need <= req -> need - got <= fuel ->
  exists k, let s' := fill_loop fuel s need req got in
    s'.(disk) = s.(disk) /\ s'.(off) = s'.(fpos) /\ s'.(fpos) = s.(fpos) + k
    /\ s.(fpos) + k <= length s.(disk)
    /\ s'.(buf) = s.(buf) ++ slice s.(disk) s.(fpos) k
    /\ s'.(pt) = s.(pt) /\ s'.(wrt) = s.(wrt) /\ s'.(ro) = s.(ro)
    /\ s'.(lim) = s.(lim) /\ s'.(blen) = s.(blen) /\ s'.(maxp) = s.(maxp)
    /\ (need <= got + k \/ s'.(fpos) = length s.(disk))
    /\ got + k <= Nat.max got req.
Proof.
  induction fuel as [|f IH]; intros s need req got Ho Hf Hn Hfu; simpl.
  - exists 0. rewrite Nat.add_0_r. unfold slice. simpl. rewrite app_nil_r.
    repeat split; auto; lia.
  - destruct (Nat.ltb_spec got need) as [G|G].
    2:{ exists 0. rewrite Nat.add_0_r. unfold slice. simpl. rewrite app_nil_r.
        repeat split; auto; lia. }
    set (k0 := match chunks s with [] => req - got | c :: _ => Nat.min (req - got) (S c) end).
    assert (Hk : 1 <= k0 <= req - got) by (unfold k0; destruct (chunks s); lia).
    destruct (slice (disk s) (off s) k0) as [|b bs] eqn:E.
    + exists 0. assert (length (slice (disk s) (off s) k0) = 0) by (rewrite E; reflexivity).
      rewrite len_slice in H. rewrite Nat.add_0_r. unfold slice. simpl.
      rewrite app_nil_r. rewrite Ho. repeat split; auto; simpl; try lia.
    + rewrite <- E in *. assert (Hl : length (slice (disk s) (off s) k0) <= k0) by (rewrite len_slice; lia).
      assert (Hl1 : 1 <= length (slice (disk s) (off s) k0)) by (rewrite E; simpl; lia).
      assert (Hl2 : off s + length (slice (disk s) (off s) k0) <= length (disk s)) by (rewrite len_slice; lia).
      set (n := length (slice (disk s) (off s) k0)) in *.
      assert (En : slice (disk s) (off s) k0 = slice (disk s) (fpos s) n).
      { rewrite <- Ho. apply nth_ext0.
        - fold n. rewrite len_slice. lia.
        - intros i. rewrite !nth_slice. unfold n in *. rewrite len_slice in *.
          destruct (Nat.ltb_spec i k0), (Nat.ltb_spec i (Nat.min k0 (length (disk s) - off s))); try lia; auto.
          apply nth_overflow. lia. }
      match goal with |- context [fill_loop f ?x need req ?g] => set (s2 := x); set (g2 := g) end.
      destruct (IH s2 need req g2) as (k & K); auto; try (unfold s2, g2; simpl; lia).
      exists (n + k). simpl in K. destruct K as (K1 & K2 & K3 & K4 & K5 & K6 & K7 & K8 & K9 & K10 & K11 & K12 & K13).
      change (fpos s2) with (fpos s + n) in *. change (disk s2) with (disk s) in *.
      change (buf s2) with (buf s ++ slice (disk s) (off s) k0) in *.
      change g2 with (got + n) in K12, K13.
      repeat split; auto; try lia.
      * rewrite K5, En. rewrite <- app_assoc. f_equal.
        symmetry. apply slice_app. lia.
      * destruct K12 as [K12|K12]; [left; lia|right; exact K12].
Qed.

Lemma fill_ok : forall p s n, R p s -> s.(wrt) = false ->
  R (goto p p.(pos) RBuf) (fill s n) /\ (fill s n).(wrt) = false
  /\ (length s.(buf) - s.(pt) <= n -> (fill s n).(pt) + n <= length (fill s n).(buf) \/ (fill s n).(fpos) = length (fill s n).(disk)).
Proof.
  intros p s n HR W. pose proof HR as HR'. destruct HR' as [r_ro0 r_off0 r_fpos0 r_blen0 r_stale0 r_dir0 r_mode0].
  unfold dir_ok in r_dir0. rewrite W in r_dir0. destruct r_dir0 as (D1 & D2 & D3 & D4 & D5).
  unfold fill. set (b := skipn (pt s) (buf s)).
  set (s1 := set_buf s b 0).
  match goal with |- context [if ?c then ?x else s1] => set (s2 := if c then x else s1) end.
  assert (Hbl : length b = length (buf s) - pt s) by (unfold b; apply skipn_length).
  assert (S2 : disk s2 = disk s /\ off s2 = off s /\ fpos s2 = fpos s /\ buf s2 = b /\ pt s2 = 0
               /\ wrt s2 = false /\ ro s2 = ro s /\ maxp s2 = maxp s
               /\ (blen s <= blen s2)%Z /\ (Z.of_nat n <= blen s2)%Z).
  { unfold s2. simpl. destruct (Z.ltb_spec (blen s) (Z.of_nat n)); simpl.
    - destruct (Z.leb_spec (blen s) 0); [lia|].
      destruct (double_ge n 0x40000 (blen s) (Z.of_nat n)); try lia.
      repeat split; auto; lia.
    - repeat split; auto; lia. }
  destruct S2 as (A1 & A2 & A3 & A4 & A5 & A6 & A7 & A8 & A9 & A10).
  destruct (fill_loop_ok n s2 (n - length b) (Z.to_nat (blen s2) - length b) 0) as (k & K);
    try (rewrite ?A1, ?A2, ?A3; auto; lia).
  simpl in K. set (s' := fill_loop n s2 (n - length b) (Z.to_nat (blen s2) - length b) 0) in *.
  destruct K as (K1 & K2 & K3 & K4 & K5 & K6 & K7 & K8 & K9 & K10 & K11 & K12 & K13).
  assert (Hb : b = slice (disk s) (fpos s - length b) (length b)).
  { rewrite Hbl. unfold b. rewrite D3 at 1. rewrite skipn_slice.
    f_equal. lia. }
  clearbody s'. clearbody s2. clear s1. clearbody b.
  rewrite A1, A3, A4 in *.
  assert (L : length (slice (disk s) (fpos s) k) = k) by (rewrite len_slice; lia).
  assert (B : length (buf s') = length b + k) by (rewrite K5, app_length; lia).
  split; [|split].
  - constructor; simpl.
    + congruence.
    + exact K2.
    + rewrite K1, K3. lia.
    + rewrite K10. lia.
    + intros S0. rewrite K11, A8, K1. auto.
    + unfold dir_ok. rewrite K7, A6. rewrite K6, A5, B, K3. simpl.
      split; [lia|]. split; [lia|]. split; [|split; [congruence|lia]].
      rewrite K5, K1. rewrite slice_app by lia.
      replace (fpos s + k - (length b + k) + length b) with (fpos s) by lia.
      replace (fpos s + k - (length b + k)) with (fpos s - length b) by lia.
      f_equal. exact Hb.
    + congruence.
  - congruence.
  - intros Hn. rewrite K6, A5, B, K1, K3. simpl. destruct K12; lia.
Qed.

Lemma request_ok : forall p s n, R p s -> s.(wrt) = false ->
  R (goto p p.(pos) RBuf) (fst (request s n)) /\ (fst (request s n)).(wrt) = false
  /\ snd (request s n) = (p.(pos) + n <=? size p)
  /\ (snd (request s n) = true -> (fst (request s n)).(pt) + n <= length (fst (request s n)).(buf)).
Proof.
  intros p s n HR W. unfold request.
  destruct (Nat.leb_spec (pt s + n) (length (buf s))) as [L|L]; simpl.
  - split; [|split; [|split]]; auto.
    + apply R_goto; auto.
    + symmetry. apply Nat.leb_le. rewrite (size_ok p s HR), W.
      destruct HR as [r_ro0 r_off0 r_fpos0 r_blen0 r_stale0 r_dir0 r_mode0]. unfold dir_ok in r_dir0. rewrite W in r_dir0. lia.
  - destruct (fill_ok p s n HR W) as (F1 & F2 & F3).
    split; [exact F1|split; [exact F2|split]].
    + pose proof (size_ok _ _ F1) as HS. rewrite F2 in HS. unfold size in HS. simpl in HS.
      unfold size. rewrite HS.
      assert (Q : length (buf s) - pt s <= n) by lia. specialize (F3 Q).
      destruct F1 as [r_ro0 r_off0 r_fpos0 r_blen0 r_stale0 r_dir0 r_mode0]. unfold dir_ok in r_dir0. rewrite F2 in r_dir0. simpl in r_dir0.
      destruct (Nat.leb_spec (pt (fill s n) + n) (length (buf (fill s n)))),
        (Nat.leb_spec (pos p + n) (length (disk (fill s n)))); auto; lia.
    + intros H. apply Nat.leb_le in H. exact H.
Qed.

Lemma read_buf_bytes : forall p s n, R p s -> s.(wrt) = false -> s.(pt) + n <= length s.(buf) ->
  slice s.(buf) s.(pt) n = slice p.(cont) p.(pos) n.
Proof.
  intros p s n [r_ro0 r_off0 r_fpos0 r_blen0 r_stale0 r_dir0 r_mode0] W H. unfold dir_ok in r_dir0. rewrite W in r_dir0.
  destruct r_dir0 as (D1 & D2 & D3 & D4 & D5).
  rewrite D3, D4. rewrite slice_slice by lia. f_equal. lia.
Qed.

Lemma read_ok : forall p s n, R p s -> s.(wrt) = false ->
  let r := read_bytes s n in
  if p.(pos) + n <=? size p
  then snd r = OBytes (slice p.(cont) p.(pos) n) /\ R (goto p (p.(pos) + n) RBuf) (fst r)
  else snd r = OErr /\ R (goto p p.(pos) RBuf) (fst r).
Proof.
  intros p s n HR W. unfold read_bytes. rewrite W.
  destruct (request_ok p s n HR W) as (Q1 & Q2 & Q3 & Q4).
  destruct (request s n) as [s1 ok]. simpl in *. rewrite <- Q3.
  destruct ok; simpl; [|auto].
  specialize (Q4 eq_refl). split.
  - f_equal. apply (read_buf_bytes _ _ n Q1 Q2 Q4).
  - destruct Q1 as [r_ro0 r_off0 r_fpos0 r_blen0 r_stale0 r_dir0 r_mode0]. unfold dir_ok in r_dir0. rewrite Q2 in r_dir0. simpl in r_dir0.
    destruct r_dir0 as (D1 & D2 & D3 & D4 & D5).
    constructor; simpl; auto. unfold dir_ok. simpl. rewrite Q2. repeat split; auto; lia.
Qed.

Lemma probe_ok : forall p s, R p s -> s.(wrt) = false ->
  let r := probe_byte s in
  R (goto p p.(pos) RBuf) (fst r)
  /\ snd r = if p.(pos) + 1 <=? size p then OBytes (slice p.(cont) p.(pos) 1) else OErr.
Proof.
  intros p s HR W. unfold probe_byte. rewrite W.
  destruct (request_ok p s 1 HR W) as (Q1 & Q2 & Q3 & Q4).
  destruct (request s 1) as [s1 ok]. simpl in *. rewrite <- Q3.
  destruct ok; simpl; split; auto.
  f_equal. apply (read_buf_bytes _ _ 1 Q1 Q2). auto.
Qed.

(** ** Writing *)

Definition pending (p : plain) (bs : list N) (m : mode) : plain :=
  MkP (splice p.(cont) p.(pos) bs) (p.(pos) + length bs) m p.(stale).

Lemma append_ok : forall p s bs, R p s -> s.(wrt) = true ->
  (Z.of_nat (length s.(buf)) + Z.of_nat (length bs) <= s.(lim))%Z ->
  R (pending p bs WBuf) (set_buf s (s.(buf) ++ bs) s.(pt)).
Proof.
  intros p s bs [r_ro0 r_off0 r_fpos0 r_blen0 r_stale0 r_dir0 r_mode0] W H. unfold dir_ok in r_dir0. rewrite W in r_dir0.
  destruct r_dir0 as (D1 & D2 & D3).
  constructor; simpl; auto. unfold dir_ok; simpl. rewrite W, app_length.
  repeat split; try lia. rewrite splice_app, D2, D3. reflexivity.
Qed.

Lemma sizes_ok : forall p s l n, R p s -> s.(wrt) = true ->
  (8 <= l <= n)%Z -> (Z.of_nat (length s.(buf)) <= l)%Z -> R p (set_sizes s l n).
Proof.
  intros p s l n [r_ro0 r_off0 r_fpos0 r_blen0 r_stale0 r_dir0 r_mode0] W H1 H2. unfold dir_ok in r_dir0. rewrite W in r_dir0.
  destruct r_dir0 as (D1 & D2 & D3).
  constructor; simpl; auto; try lia. unfold dir_ok; simpl. rewrite W. repeat split; auto; lia.
Qed.

Lemma grow_ok : forall p s n, R p s -> s.(wrt) = true -> s.(buf) = [] -> (s.(lim) <= Z.of_nat n)%Z ->
  R p (grow_out s n) /\ (grow_out s n).(wrt) = true /\ (grow_out s n).(buf) = []
  /\ (Z.of_nat n <= (grow_out s n).(lim))%Z.
Proof.
  intros p s n HR W B H. pose proof HR as HR'. destruct HR' as [r_ro0 r_off0 r_fpos0 r_blen0 r_stale0 r_dir0 r_mode0].
  unfold dir_ok in r_dir0. rewrite W in r_dir0. destruct r_dir0 as (D1 & D2 & D3).
  unfold grow_out. rewrite B. cbn [length Nat.add].
  destruct (Z.ltb_spec (Z.of_nat 0 + Z.of_nat n) (lim s)); [lia|].
  destruct (Z.leb_spec (lim s) 0); [lia|].
  destruct (double_ge n 250000 (lim s) (Z.of_nat 0 + Z.of_nat n)); try lia.
  split; [|simpl; repeat split; auto; lia].
  apply sizes_ok; auto; try lia.
Qed.

Lemma write_ok : forall p s bs, R p s -> s.(wrt) = true ->
  snd (write_bytes s bs) = OInt (Z.of_nat (length bs))
  /\ R (pending p bs WBuf) (fst (write_bytes s bs)).
Proof.
  intros p s bs HR W. unfold write_bytes. rewrite W. simpl.
  destruct (Z.leb_spec (Z.of_nat (length (buf s)) + Z.of_nat (length bs)) (lim s)) as [L|L]; simpl.
  - split; auto. apply append_ok; auto.
  - assert (C : exists s1, check_output s (length bs) = Some s1 /\ R (goto p p.(pos) WBuf) s1
       /\ wrt s1 = true /\ (Z.of_nat (length (buf s1)) + Z.of_nat (length bs) <= lim s1)%Z).
    { unfold check_output. destruct (buf s) as [|x b] eqn:B.
      - destruct (grow_ok p s (length bs) HR W B) as (G1 & G2 & G3 & G4).
        { simpl in L. lia. }
        eexists. split; [reflexivity|]. split; [apply R_goto; auto|]. split; [exact G2|].
        rewrite G3. simpl. lia.
      - assert (Hm : mode_ok WBuf (set_buf s [] 0)) by (simpl; auto).
        destruct (flush_ok p s WBuf HR) as (Hok & HR1 & Hb & Hw & Hd & Hf & Hl & Hbl); auto.
        { congruence. }
        destruct (flush s) as [s1 ok]. simpl in *. subst ok. simpl. rewrite Hb. simpl.
        assert (W1 : wrt s1 = true) by congruence.
        destruct (Z.ltb_spec (Z.of_nat (length bs)) (lim s1)).
        { exists s1. rewrite Hb. simpl. split; [reflexivity|]. split; [exact HR1|]. split; [exact W1|lia]. }
        pose proof HR1 as HR1'. destruct HR1' as [r_ro0 r_off0 r_fpos0 r_blen0 r_stale0 r_dir0 r_mode0]. unfold dir_ok in r_dir0. rewrite W1 in r_dir0.
        destruct r_dir0 as (D1 & D2 & D3).
        destruct (Z.ltb_spec (Z.of_nat (length bs)) (blen s1)).
        { eexists. split; [reflexivity|].
          assert (RR : R (goto p (pos p) WBuf) (set_sizes s1 (Z.of_nat (length bs)) (blen s1))).
          { apply sizes_ok; auto; try lia. }
          split; [exact RR|]. split; [exact W1|]. simpl. rewrite Hb. simpl. lia. }
        destruct (grow_ok _ s1 (length bs) HR1 W1 Hb) as (G1 & G2 & G3 & G4); [lia|].
        eexists. split; [reflexivity|]. split; [exact G1|]. split; [exact G2|].
        rewrite G3. simpl. lia. }
    destruct C as (s1 & -> & R1 & W1 & L1). simpl. split; auto.
    apply (append_ok _ _ _ R1 W1 L1).
Qed.

Lemma pending_goto : forall p m bs m', pending (goto p p.(pos) m) bs m' = pending p bs m'.
Proof. reflexivity. Qed.

(** ** Direct reading *)

Lemma read_loop_ok : forall fuel s need got,
  s.(off) = s.(fpos) -> s.(fpos) + (need - length got) <= length s.(disk) ->
  need - length got <= fuel -> length got <= need ->
  exists s', read_loop fuel s need got
             = (s', Some (got ++ slice s.(disk) s.(fpos) (need - length got)))
    /\ s'.(disk) = s.(disk) /\ s'.(off) = s'.(fpos) /\ s'.(fpos) = s.(fpos) + (need - length got)
    /\ s'.(buf) = s.(buf) /\ s'.(pt) = s.(pt) /\ s'.(wrt) = s.(wrt) /\ s'.(ro) = s.(ro)
    /\ s'.(lim) = s.(lim) /\ s'.(blen) = s.(blen) /\ s'.(maxp) = s.(maxp).
Proof.
  induction fuel as [|f IH]; intros s need got Ho Hf Hfu Hg.
  - assert (length got = need) by lia. simpl.
    destruct (Nat.ltb_spec (length got) need); [lia|].
    exists s. replace (need - length got) with 0 by lia. unfold slice. simpl. rewrite app_nil_r.
    repeat split; auto; lia.
  - cbn [read_loop]. destruct (Nat.ltb_spec (length got) need) as [G|G].
    2:{ exists s. replace (need - length got) with 0 by lia. unfold slice. simpl.
        rewrite app_nil_r. repeat split; auto; lia. }
    unfold os_read.
    set (k0 := match chunks s with [] => need - length got | c :: _ => Nat.min (need - length got) (S c) end).
    assert (Hk : 1 <= k0 <= need - length got) by (unfold k0; destruct (chunks s); lia).
    assert (Hl : length (slice (disk s) (off s) k0) = k0) by (rewrite len_slice; lia).
    destruct (slice (disk s) (off s) k0) as [|b bs] eqn:E; [simpl in Hl; lia|].
    rewrite <- E in *. rewrite Hl.
    match goal with |- context [read_loop f ?x need ?g] => set (s2 := x); set (g2 := g) end.
    assert (Hg2 : length g2 = length got + k0) by (unfold g2; rewrite app_length; lia).
    destruct (IH s2 need g2) as (s' & K); try (unfold s2; simpl; lia); try lia.
    exists s'. destruct K as (-> & K1 & K2 & K3 & K4 & K5 & K6 & K7 & K8 & K9 & K10).
    unfold s2 in *. simpl in *.
    repeat split; auto; try lia.
    f_equal. f_equal. rewrite Hg2. unfold g2. rewrite <- app_assoc. f_equal.
    rewrite Ho. transitivity (slice (disk s) (fpos s) (k0 + (need - (length got + k0)))).
    { symmetry. apply slice_app. lia. }
    f_equal. lia.
Qed.

(** * Conversions between bigints, machine words and digit streams. *)

From Coq Require Import ZArith List Bool Lia.
From Verif Require Import BigintModel BigintProofs BigintProofs2 BigintProofs3.
Import ListNotations.
Open Scope Z_scope.

Lemma bp_pow n : bp n = 2 ^ (30 * Z.of_nat n).
Proof.
  induction n as [|n IH]; [reflexivity|]. rewrite bp_S, IH, radix_eq.
  change 1073741824 with (2 ^ 30). rewrite <- Z.pow_add_r by lia. f_equal. lia.
Qed.

(** ** Machine words *)

Lemma word_digits_spec fuel : forall acc, 0 < acc < bp fuel ->
  digs (word_digits fuel acc) /\ topnz (word_digits fuel acc) /\ val (word_digits fuel acc) = acc
    /\ word_digits fuel acc <> [].
Proof.
  induction fuel as [|fuel IH]; intros acc Ha; [rewrite bp_0 in Ha; lia|].
  cbn [word_digits]. rewrite bp_S in Ha.
  change (radix - 1) with (Z.ones 30). rewrite Z.land_ones by lia.
  change digit_length with 30. rewrite Z.shiftr_div_pow2 by lia. change (2 ^ 30) with 1073741824.
  rewrite radix_eq in Ha.
  pose proof (Z.div_mod acc 1073741824 ltac:(lia)) as DM.
  pose proof (Z.mod_pos_bound acc 1073741824 ltac:(lia)) as MB.
  assert (Q0 : 0 <= acc / 1073741824) by (apply Z.div_pos; lia).
  destruct (Z.eqb_spec (acc / 1073741824) 0) as [E|NE].
  - sp; try discriminate.
    + apply dig_cons; [unfold dig; rewrite radix_eq; lia|constructor].
    + right. cbn [last]. lia.
    + cbn [val]. lia.
  - destruct (IH (acc / 1073741824)) as (D & T & V & N). { split; [lia|]. apply Z.div_lt_upper_bound; lia. }
    sp; try discriminate.
    + apply dig_cons; [unfold dig; rewrite radix_eq; lia|auto].
    + right. destruct T as [T|T]; [congruence|].
      destruct (word_digits fuel (acc / 1073741824)); [congruence|]. cbn [last]. exact T.
    + cbn [val]. rewrite V, radix_eq. lia.
Qed.
Theorem long_long_to_bigint_spec n : -9223372036854775807 <= n <= 9223372036854775807 ->
  exists b, long_long_to_bigint n = Some b /\ norm b /\ bval b = n.
Proof.
  intros Hn. unfold long_long_to_bigint.
  destruct (Z.eqb_spec n 0) as [->|]; [exists make_zero; sp; auto; apply norm_zero|].
  destruct (Z.eqb_spec n 1) as [->|].
  { destruct (make_one_spec false) as [A B]. exists (make_one false); sp; auto. }
  destruct (Z.eqb_spec n (-1)) as [->|].
  { destruct (make_one_spec true) as [A B]. exists (make_one true); sp; auto. }
  destruct (Z.leb_spec (-9223372036854775807) n); [|lia].
  destruct (Z.leb_spec n 9223372036854775807); [|lia]. cbn [andb].
  destruct (word_digits_spec 3 (Z.abs n)) as (D & T & V & N).
  { change (bp 3) with 1237940039285380274899124224. lia. }
  eexists. split; [reflexivity|]. split.
  - unfold norm; cbn [bdig bneg]. sp; auto. congruence.
  - rewrite bval_neg, V. destruct (Z.ltb_spec n 0); lia.
Qed.
(** The unsigned version is right except at 2^64 - 1. *)
Theorem ulong_to_bigint_spec n : 0 <= n < 18446744073709551615 ->
  norm (ulong_to_bigint n) /\ bval (ulong_to_bigint n) = n.
Proof.
  intros Hn. unfold ulong_to_bigint.
  destruct (Z.eqb_spec n 0) as [->|]; [sp; auto; apply norm_zero|].
  destruct (Z.eqb_spec n 1) as [->|]; [apply (make_one_spec false)|].
  destruct (Z.eqb_spec n 18446744073709551615) as [->|]; [lia|].
  destruct (word_digits_spec 3 n) as (D & T & V & N).
  { change (bp 3) with 1237940039285380274899124224. lia. }
  split.
  - unfold norm; cbn [bdig bneg]. sp; auto.
  - rewrite bval_neg, V. reflexivity.
Qed.

Lemma int64_some z : -9223372036854775808 <= z <= 9223372036854775807 -> int64 z = Some z.
Proof.
  intros H. unfold int64. destruct (Z.leb_spec (-9223372036854775808) z); [|lia].
  destruct (Z.leb_spec z 9223372036854775807); [|lia]. reflexivity.
Qed.
Lemma to_long_loop_spec ds : forall acc, digs ds -> 0 <= acc ->
  acc * bp (length ds) + val ds <= 9223372036854775807 ->
  to_long_loop (rev ds) acc = Some (acc * bp (length ds) + val ds).
Proof.
  induction ds as [|d ds IH] using rev_ind; intros acc HD Ha HB.
  - cbn [rev to_long_loop length val]. rewrite bp_0. f_equal. lia.
  - apply digs_app in HD as [HD Hd]. apply digs_inv in Hd as [Hd _]. unfold dig in Hd. rewrite radix_eq in Hd.
    rewrite rev_app_distr. cbn [rev app to_long_loop]. rewrite val_app in *. cbn [val] in *.
    rewrite app_length in *. cbn [length] in *. replace (length ds + 1)%nat with (S (length ds)) in * by lia.
    rewrite bp_S, radix_eq in *.
    change digit_length with 30. rewrite Z.shiftl_mul_pow2 by lia. change (2 ^ 30) with 1073741824.
    pose proof (bp_pos (length ds)). pose proof (val_range ds HD).
    assert (HB' : (acc * 1073741824 + d) * bp (length ds) + val ds <= 9223372036854775807) by lia.
    assert (0 <= acc * 1073741824 + d <= 9223372036854775807) by nia.
    rewrite int64_some by lia. rewrite int64_some by lia.
    rewrite IH; auto; try lia. f_equal. lia.
Qed.
Theorem bigint_to_long_spec b : norm b -> Z.abs (bval b) <= 9223372036854775807 ->
  bigint_to_long b = Some (bval b).
Proof.
  intros N HB. unfold bigint_to_long. destruct (bzero_p b) eqn:Z; [rewrite bval_zero; auto|].
  rewrite bval_abs in HB by auto. destruct N as (D & _).
  rewrite to_long_loop_spec; auto; try lia. unfold bval. destruct (bneg b); f_equal; lia.
Qed.

Theorem fits_in_word_spec b w : norm b -> 1 < w ->
  fits_in_word b w true = Some (Z.abs (bval b) <? 2 ^ (w - 1)).
Proof.
  intros N Hw. unfold fits_in_word. destruct (Z.leb_spec (w - 1) 0); [lia|].
  rewrite bval_abs by auto. destruct N as (D & T & _). unfold blength.
  set (m := w - 1) in *. assert (Hm : 0 < m) by lia. clearbody m. clear H Hw w.
  unfold bits_to_digits. change digit_length with 30.
  pose proof (Z.div_mod (m + (30 - 1)) 30 ltac:(lia)) as DM.
  pose proof (Z.mod_pos_bound (m + (30 - 1)) 30 ltac:(lia)) as MB.
  set (k := (m + (30 - 1)) / 30) in *. clearbody k.
  pose proof (val_range _ D) as R. rewrite bp_pow in R.
  destruct (Z.ltb_spec (Z.of_nat (length (bdig b))) k) as [L|L].
  - f_equal. symmetry. apply Z.ltb_lt. 
    assert (2 ^ (30 * Z.of_nat (length (bdig b))) <= 2 ^ m) by (apply Z.pow_le_mono_r; lia). lia.
  - destruct (Z.eqb_spec (Z.of_nat (length (bdig b))) k) as [E|NE].
    + destruct (exists_last (l := bdig b)) as (d0 & top & Ed). { intros E0. rewrite E0 in E. cbn in E. lia. }
      rewrite Ed in *. rewrite app_length in *. cbn [length] in *.
      rewrite nth_error_app2 by lia. replace (length d0 + 1 - 1 - length d0)%nat with 0%nat by lia.
      cbn [nth_error]. f_equal. apply digs_app in D as [D0 _]. pose proof (val_range d0 D0) as R0.
      rewrite val_app. cbn [val]. rewrite bp_pow in *. rewrite Z.shiftl_1_l.
      replace (Z.of_nat (length d0 + 1) - 1) with (Z.of_nat (length d0)) by lia.
      replace (Z.of_nat (length d0) * 30) with (30 * Z.of_nat (length d0)) by lia.
      set (P := 30 * Z.of_nat (length d0)) in *.
      assert (HS : 2 ^ m = 2 ^ P * 2 ^ (m - P)) by (rewrite <- Z.pow_add_r by lia; f_equal; lia).
      assert (0 < 2 ^ P) by (apply Z.pow_pos_nonneg; lia).
      rewrite HS. clear - R0 H. set (X := 2 ^ P) in *. set (Y := 2 ^ (m - P)). clearbody X Y.
      replace (val d0 + X * (top + radix * 0)) with (val d0 + X * top) by lia.
      destruct (Z.ltb_spec top Y), (Z.ltb_spec (val d0 + X * top) (X * Y)); auto; nia.
    + f_equal. symmetry. apply Z.ltb_ge.
      assert (NZ : bdig b <> []) by (intros E0; rewrite E0 in L, NE; cbn [length] in L, NE; lia).
      pose proof (topnz_lower _ D T NZ) as LB. rewrite bp_pow in LB.
      assert (2 ^ m <= 2 ^ (30 * Z.of_nat (length (bdig b) - 1))) by (apply Z.pow_le_mono_r; lia). lia.
Qed.

(** ** Digit streams *)

(** Value of digits, most significant first. *)
Fixpoint horner (r : Z) (ds : list Z) (acc : Z) : Z :=
  match ds with [] => acc | d :: t => horner r t (acc * r + d) end.
(** Value of digits, least significant first. *)
Fixpoint lsd (r : Z) (ds : list Z) : Z :=
  match ds with [] => 0 | d :: t => d + r * lsd r t end.
Lemma horner_app r a : forall b acc, horner r (a ++ b) acc = horner r b (horner r a acc).
Proof. induction a; intros; cbn; auto. Qed.
Lemma horner_rev r ds : horner r (rev ds) 0 = lsd r ds.
Proof.
  induction ds as [|d ds IH]; [reflexivity|]. cbn [rev lsd]. rewrite horner_app, IH. cbn. lia.
Qed.
Lemma horner_bound r ds : 1 < r -> Forall (fun d => 0 <= d < r) ds -> forall acc, 0 <= acc ->
  acc * r ^ Z.of_nat (length ds) <= horner r ds acc < (acc + 1) * r ^ Z.of_nat (length ds).
Proof.
  intros Hr. induction ds as [|d ds IH]; intros HF acc Ha.
  - cbn. lia.
  - inversion HF as [|? ? Hd HF']; subst. cbn [horner length].
    specialize (IH HF' (acc * r + d) ltac:(nia)).
    rewrite Nat2Z.inj_succ, Z.pow_succ_r by lia.
    assert (0 < r ^ Z.of_nat (length ds)) by (apply Z.pow_pos_nonneg; lia). nia.
Qed.

Lemma add_one_spec ds : digs ds -> val ds + 1 < bp (length ds) ->
  exists t, add_one ds = Some t /\ digs t /\ length t = length ds /\ val t = val ds + 1.
Proof.
  induction ds as [|d ds IH]; intros HD HB.
  - cbn [val length] in HB. rewrite bp_0 in HB. lia.
  - apply digs_inv in HD as [Hd HD]. unfold dig in Hd. rewrite radix_eq in Hd.
    cbn [add_one val length] in *. rewrite bp_S, radix_eq in *. rewrite int32_some by lia.
    destruct (Z.ltb_spec (d + 1) 1073741824).
    + exists (d + 1 :: ds). sp; auto. { apply dig_cons; auto. unfold dig; rewrite radix_eq; lia. }
      cbn [val]. rewrite radix_eq. lia.
    + destruct IH as (t & E & Dt & Lt & Vt); auto; [lia|]. rewrite E.
      exists (d + 1 - 1073741824 :: t). sp; auto.
      * apply dig_cons; auto. unfold dig; rewrite radix_eq; lia.
      * cbn; lia.
      * cbn [val]. rewrite radix_eq. lia.
Qed.
Lemma destructive_add_spec ds n : digs ds -> 0 <= n < 32768 -> val ds + n < bp (length ds) ->
  ds <> [] -> exists t, destructive_add ds n = Some t /\ digs t /\ length t = length ds /\ val t = val ds + n.
Proof.
  intros HD Hn HB NE. destruct ds as [|d ds]; [congruence|].
  apply digs_inv in HD as [Hd HD]. unfold dig in Hd. rewrite radix_eq in Hd.
  cbn [destructive_add val length] in *. rewrite bp_S, radix_eq in *. rewrite int32_some by lia.
  destruct (Z.ltb_spec (d + n) 1073741824).
  - exists (d + n :: ds). sp; auto. { apply dig_cons; auto. unfold dig; rewrite radix_eq; lia. }
    cbn [val]. rewrite radix_eq. lia.
  - destruct (add_one_spec ds) as (t & E & Dt & Lt & Vt); auto; [lia|]. rewrite E.
    exists (d + n - 1073741824 :: t). sp; auto.
    + apply dig_cons; auto. unfold dig; rewrite radix_eq; lia.
    + cbn; lia.
    + cbn [val]. rewrite radix_eq. lia.
Qed.
Lemma stream_loop_spec r ds : 1 < r < 32768 -> Forall (fun d => 0 <= d < r) ds ->
  forall acc, digs acc -> acc <> [] -> horner r ds (val acc) < bp (length acc) ->
  exists t, stream_loop ds r acc = Some (Some t) /\ digs t /\ length t = length acc /\ val t = horner r ds (val acc).
Proof.
  intros Hr. induction ds as [|d ds IH]; intros HF acc HD NE HB.
  - exists acc. cbn. sp; auto.
  - inversion HF as [|? ? Hd HF']; subst. cbn [stream_loop horner] in *.
    destruct (Z.ltb_spec d 0); [lia|]. destruct (Z.ltb_spec r d); [lia|]. cbn [orb].
    pose proof (val_range acc HD) as R.
    assert (B1 : val acc * r + d < bp (length acc)).
    { pose proof (horner_bound r ds ltac:(lia) HF' (val acc * r + d) ltac:(nia)).
      assert (1 <= r ^ Z.of_nat (length ds)) by (assert (0 < r ^ Z.of_nat (length ds)) by (apply Z.pow_pos_nonneg; lia); lia).
      nia. }
    destruct (scale_up_spec acc r HD Hr) as (a1 & E1 & D1 & L1 & V1); [lia|]. rewrite E1.
    destruct (destructive_add_spec a1 d D1) as (a2 & E2 & D2 & L2 & V2).
    { lia. } { rewrite V1, L1. lia. } { destruct a1; [destruct acc; [congruence|discriminate]|discriminate]. }
    rewrite E2. rewrite V1 in V2.
    destruct (IH HF' a2 D2) as (t & E & Dt & Lt & Vt).
    { destruct a2; [destruct a1; [destruct acc; [congruence|discriminate]|discriminate]|discriminate]. }
    { rewrite V2, L2, L1. exact HB. }
    exists t. rewrite V2 in Vt. sp; auto. congruence.
Qed.
Lemma bit_count_spec fuel : forall r, 0 <= r < 2 ^ Z.of_nat fuel ->
  r < 2 ^ bit_count fuel r /\ 0 <= bit_count fuel r.
Proof.
  induction fuel as [|fuel IH]; intros r Hr.
  - cbn in *. lia.
  - cbn [bit_count]. destruct (Z.ltb_spec 0 r); [|cbn; lia].
    rewrite Z.shiftr_div_pow2 by lia. change (2 ^ 1) with 2.
    rewrite Nat2Z.inj_succ, Z.pow_succ_r in Hr by lia.
    destruct (IH (r / 2)) as [A B]. { split; [apply Z.div_pos; lia|apply Z.div_lt_upper_bound; lia]. }
    rewrite Z.pow_add_r by lia. change (2 ^ 1) with 2.
    pose proof (Z.div_mod r 2 ltac:(lia)). pose proof (Z.mod_pos_bound r 2 ltac:(lia)). lia.
Qed.

(** Reading digits of any base gives the number they denote. *)
Theorem digit_stream_to_bigint_spec ds r neg : 1 < r < 32768 -> Forall (fun d => 0 <= d < r) ds ->
  exists b, digit_stream_to_bigint ds r neg = Some (Some b) /\ norm b
    /\ bval b = (if neg then - horner r ds 0 else horner r ds 0).
Proof.
  intros Hr HF. unfold digit_stream_to_bigint. change radix_root with 32768.
  destruct (Z.ltb_spec 1 r); [|lia]. destruct (Z.leb_spec r 32768); [|lia]. cbn [andb negb].
  destruct ds as [|d [|d2 ds]].
  - exists make_zero. sp; auto; [apply norm_zero|destruct neg; reflexivity].
  - inversion HF; subst. destruct (Z.ltb_spec d 0); [lia|]. destruct (Z.ltb_spec r d); [lia|]. cbn [orb].
    destruct (long_long_to_bigint_spec (if neg then - d else d)) as (b & E & N & V); [destruct neg; lia|].
    rewrite E. exists b. sp; auto.
  - set (l := d :: d2 :: ds) in *.
    assert (Ll : 0 < Z.of_nat (length l)) by (unfold l; cbn; lia).
    destruct (bit_count_spec 32 r) as [B1 B2]. { change (2 ^ Z.of_nat 32) with 4294967296. lia. }
    set (bc := bit_count 32 r) in *. clearbody bc.
    assert (Hbc : 0 < bc).
    { assert (bc <> 0); [|lia]. intros ->. cbn in B1. lia. }
    unfold bits_to_digits. change digit_length with 30.
    pose proof (Z.div_mod (Z.of_nat (length l) * bc + (30 - 1)) 30 ltac:(lia)) as DM.
    pose proof (Z.mod_pos_bound (Z.of_nat (length l) * bc + (30 - 1)) 30 ltac:(lia)) as MB.
    set (k := (Z.of_nat (length l) * bc + (30 - 1)) / 30) in *. clearbody k.
    assert (0 < Z.of_nat (length l) * bc) by nia.
    destruct (stream_loop_spec r l Hr HF (repeat 0 (Z.to_nat k))) as (t & E & Dt & Lt & Vt).
    { apply digs_repeat0. }
    { destruct (Z.to_nat k) eqn:K; [lia|discriminate]. }
    { rewrite val_repeat, repeat_length, bp_pow. rewrite Z2Nat.id by lia.
      pose proof (horner_bound r l ltac:(lia) HF 0 ltac:(lia)) as HB.
      assert (r ^ Z.of_nat (length l) <= (2 ^ bc) ^ Z.of_nat (length l)) by (apply Z.pow_le_mono_l; lia).
      rewrite <- Z.pow_mul_r in H2 by lia.
      assert (2 ^ (bc * Z.of_nat (length l)) <= 2 ^ (30 * k)) by (apply Z.pow_le_mono_r; lia). lia. }
    rewrite E. rewrite val_repeat in Vt.
    destruct (trim_spec neg t Dt) as [N V].
    { intros ->. rewrite repeat_length in Lt. cbn in Lt. lia. }
    eexists. split; [reflexivity|]. split; auto. rewrite V, Vt. reflexivity.
Qed.

Lemma to_stream_loop_spec r : 1 < r < 32768 -> forall fuel ds scan L,
  digs ds -> (scan <= length ds)%nat -> val ds < bp scan -> 0 <= L -> val ds < 2 ^ L ->
  L + Z.of_nat scan <= Z.of_nat fuel ->
  exists t, to_stream_loop fuel ds scan r = Some t /\ Forall (fun d => 0 <= d < r) t
    /\ lsd r t = val ds /\ (t = [] \/ last t 0 <> 0).
Proof.
  intros Hr. induction fuel as [|fuel IH]; intros ds scan L HD HS HV HL HV2 HF.
  - assert (scan = O) by lia. subst scan. exists []. cbn. rewrite bp_0 in HV. pose proof (val_range ds HD).
    sp; auto; lia.
  - destruct scan as [|scan]; cbn [to_stream_loop].
    + exists []. rewrite bp_0 in HV. pose proof (val_range ds HD). cbn. sp; auto; lia.
    + destruct (nth_error ds scan) as [top|] eqn:E; [|apply nth_error_None in E; lia].
      destruct (nth_error_split ds scan E) as (l1 & l2 & Ed & Ll).
      assert (D2 := HD). rewrite Ed in D2. apply digs_app in D2 as [D1 D2]. apply digs_inv in D2 as [Dt D2].
      pose proof (val_range l1 D1) as R1. pose proof (val_range l2 D2) as R2. rewrite Ll in R1.
      assert (EV : val ds = val l1 + bp scan * (top + radix * val l2)) by (rewrite Ed, val_app, Ll; reflexivity).
      pose proof (bp_pos scan) as PB. rewrite bp_S in HV. unfold dig in Dt. rewrite radix_eq in *.
      assert (Z2 : val l2 = 0) by nia.
      destruct (Z.eqb_spec top 0) as [->|NT].
      * apply (IH ds scan L); auto; try lia.
      * destruct (scale_down_spec ds r HD Hr) as (ds' & rm & E2 & D' & L' & Hrm & V'). rewrite E2.
        assert (HP : 0 < val ds) by nia.
        assert (L1 : 0 < L). { assert (L <> 0); [|lia]. intros ->. cbn in HV2. lia. }
        pose proof (val_range ds' D').
        assert (HH : val ds' < 2 ^ (L - 1)).
        { assert (2 ^ L = 2 * 2 ^ (L - 1)) by (rewrite <- Z.pow_succ_r by lia; f_equal; lia). nia. }
        destruct (IH ds' (S scan) (L - 1)) as (t & E3 & F3 & V3 & T3); auto; try lia.
        { rewrite bp_S, radix_eq. nia. }
        rewrite E3. exists (rm :: t). sp; auto.
        { cbn [lsd]. lia. }
        right. destruct t as [|a t]; [|destruct T3 as [T3|T3]; [discriminate|exact T3]].
        cbn in *. assert (val ds' = 0) by lia. lia.
Qed.
(** Giving out the digits in any base gives the digits of the number, least significant
    first and without leading zeros. *)
Theorem bigint_to_digit_stream_spec b r : norm b -> 1 < r < 32768 ->
  exists t, bigint_to_digit_stream b r = Some t /\ Forall (fun d => 0 <= d < r) t
    /\ lsd r t = Z.abs (bval b) /\ (t = [] \/ last t 0 <> 0).
Proof.
  intros N Hr. unfold bigint_to_digit_stream. change radix_root with 32768.
  destruct (Z.ltb_spec 1 r); [|lia]. destruct (Z.leb_spec r 32768); [|lia]. cbn [andb negb].
  rewrite bval_abs by auto. destruct N as (D & _). pose proof (val_range _ D).
  apply to_stream_loop_spec with (L := 30 * Z.of_nat (blength b)); auto; unfold blength; try lia.
  rewrite <- bp_pow. lia.
Qed.

(** * Division of digit lists (Knuth's algorithm D and its special cases). *)

From Coq Require Import ZArith List Bool Lia.
From Verif Require Import BigintModel BigintProofs.
Import ListNotations.
Open Scope Z_scope.

(** ** Small divisors *)

Lemma scale_down_loop_spec ds d : digs ds -> 1 < d < 32768 ->
  exists t r, scale_down_loop ds d = Some (t, r) /\ digs t /\ length t = length ds
    /\ 0 <= r < d /\ val ds = val t * d + r.
Proof.
  intros HD Hd. induction ds as [|x ds IH]; cbn [scale_down_loop].
  - exists [], 0. cbn. sp; auto; lia.
  - inv_digs HD. destruct (IH HD) as (t & r & E & Ht & Hl & Hr & Hv). rewrite E.
    unfold dig in Hd0. rewrite radix_eq in Hd0. split_hd x. assert (Hhi : 0 <= hi < 32768) by lia.
    rewrite hd_cons_eq by lia. rewrite int32_some by lia.
    set (n1 := r * 32768 + hi). assert (Hn1 : n1 = r * 32768 + hi) by reflexivity. clearbody n1.
    assert (Hn1p : 0 <= n1) by lia.
    rewrite Z.quot_div_nonneg, Z.rem_mod_nonneg by lia.
    pose proof (Z.div_mod n1 d ltac:(lia)). pose proof (Z.mod_pos_bound n1 d ltac:(lia)).
    set (qh := n1 / d) in *. set (m1 := n1 mod d) in *. clearbody qh m1.
    assert (0 <= qh < 32768) by nia.
    rewrite int32_some by lia. rewrite hd_cons_eq by lia. rewrite int32_some by lia.
    set (n2 := m1 * 32768 + lo). assert (Hn2 : n2 = m1 * 32768 + lo) by reflexivity. clearbody n2.
    assert (Hn2p : 0 <= n2) by lia.
    rewrite Z.quot_div_nonneg, Z.rem_mod_nonneg by lia.
    pose proof (Z.div_mod n2 d ltac:(lia)). pose proof (Z.mod_pos_bound n2 d ltac:(lia)).
    set (ql := n2 / d) in *. set (m2 := n2 mod d) in *. clearbody ql m2.
    assert (0 <= ql < 32768) by nia.
    rewrite hd_cons_eq by lia. rewrite int32_some by lia.
    exists (qh * 32768 + ql :: t), m2. sp; auto; try lia.
    + apply dig_cons; auto. apply cons_dig; lia.
    + cbn; lia.
    + cbn [val]. rewrite radix_eq. nia.
Qed.
Lemma scale_down_spec ds d : digs ds -> 1 < d < 32768 ->
  exists t r, scale_down ds d = Some (t, r) /\ digs t /\ length t = length ds
    /\ 0 <= r < d /\ val ds = val t * d + r.
Proof.
  intros HD Hd. unfold scale_down, radix_root.
  destruct (Z.ltb_spec 1 d); [|lia]. destruct (Z.ltb_spec d 32768); [|lia]. cbn [andb].
  apply scale_down_loop_spec; auto.
Qed.
Lemma remainder_small_loop_spec ds d : digs ds -> 1 < d < 32768 ->
  exists r, remainder_small_loop ds d = Some r /\ r = val ds mod d.
Proof.
  intros HD Hd. induction ds as [|x ds IH]; cbn [remainder_small_loop].
  - exists 0. split; auto.
  - inv_digs HD. destruct (IH HD) as (r & E & Hr). rewrite E.
    pose proof (Z.mod_pos_bound (val ds) d ltac:(lia)).
    unfold dig in Hd0. rewrite radix_eq in Hd0. split_hd x. assert (Hhi : 0 <= hi < 32768) by lia.
    rewrite hd_cons_eq by lia. rewrite int32_some by lia.
    rewrite Z.rem_mod_nonneg by lia.
    pose proof (Z.mod_pos_bound (r * 32768 + hi) d ltac:(lia)).
    rewrite hd_cons_eq by lia. rewrite int32_some by lia.
    rewrite Z.rem_mod_nonneg by lia.
    pose proof (Z.mod_pos_bound ((r * 32768 + hi) mod d * 32768 + lo) d ltac:(lia)).
    rewrite int32_some by lia. eexists; split; [reflexivity|].
    cbn [val]. rewrite radix_eq.
    replace (x + 1073741824 * val ds) with ((val ds * 32768 + hi) * 32768 + lo) by lia.
    rewrite <- (Z.add_mod_idemp_l ((val ds * 32768 + hi) * 32768)) by lia.
    rewrite <- (Z.mul_mod_idemp_l (val ds * 32768 + hi)) by lia.
    rewrite <- (Z.add_mod_idemp_l (val ds * 32768)) by lia.
    rewrite <- (Z.mul_mod_idemp_l (val ds)) by lia. rewrite <- Hr.
    rewrite (Z.add_mod_idemp_l (r * 32768)) by lia.
    rewrite (Z.add_mod_idemp_l _ lo) by lia. reflexivity.
Qed.
Lemma digit_to_bigint_spec d n : dig d ->
  norm (digit_to_bigint d n) /\ bval (digit_to_bigint d n) = if n then - d else d.
Proof.
  intros Hd. unfold digit_to_bigint. destruct (Z.eqb_spec d 0) as [->|].
  - split; [apply norm_zero|destruct n; reflexivity].
  - rewrite bval_neg. cbn [val]. split; [|destruct n; lia].
    unfold norm; sp; cbn [bdig bneg]; [constructor; auto; constructor|right; cbn; auto|discriminate].
Qed.

(** What a division must deliver, for magnitudes. *)
Definition div_ok (n d : list Z) (qn rn : bool) (o : option (bigint * bigint)) : Prop :=
  exists q r, o = Some (q, r) /\ norm q /\ norm r /\
    exists vq vr, bval q = (if qn then - vq else vq) /\ bval r = (if rn then - vr else vr)
      /\ 0 <= vr < val d /\ val n = vq * val d + vr /\ 0 <= vq.

Lemma divide_small_spec n d qn rn : digs n -> n <> [] -> 1 < d < 32768 ->
  div_ok n [d] qn rn (divide_small n d qn rn).
Proof.
  intros Hn Nn Hd. unfold divide_small.
  destruct (scale_down_spec n d Hn Hd) as (t & r & E & Ht & Hl & Hr & Hv). rewrite E.
  assert (Hdr : dig r) by (unfold dig; rewrite radix_eq; lia).
  destruct (trim_spec qn t Ht) as [N V].
  { destruct t; [destruct n; [congruence|discriminate]|discriminate]. }
  destruct (digit_to_bigint_spec r rn Hdr) as [N' V'].
  do 2 eexists. split; [reflexivity|]. split; [exact N|]. split; [exact N'|].
  exists (val t), r. cbn [val]. pose proof (val_range t Ht). sp; auto; lia.
Qed.

(** ** The trial quotient *)

(** [u] and [v] by their leading digits in base [b]: u = u3*K + ur, v = (v1*b+v2)*K + vr. *)
Lemma trial_lo b K v1 v2 vr u3 ur g : 0 < K -> 0 <= vr -> 0 <= ur < K -> 0 < (v1 * b + v2) * K + vr ->
  0 <= g -> u3 < g * (v1 * b + v2) -> (u3 * K + ur) / ((v1 * b + v2) * K + vr) <= g - 1.
Proof.
  intros HK Hvr Hur Hv Hg H. apply Z.lt_le_pred. apply Z.div_lt_upper_bound; [exact Hv|].
  assert (u3 + 1 <= g * (v1 * b + v2)) by lia. nia.
Qed.
Lemma trial_hi b K v1 v2 vr u3 ur g : 0 < K -> 0 <= vr < K -> 0 <= ur -> 0 <= v2 -> 0 <= v1 ->
  b <= 2 * v1 -> 1 < b ->
  0 <= g < b -> g * (v1 * b + v2) <= u3 -> g <= (u3 * K + ur) / ((v1 * b + v2) * K + vr) + 1.
Proof.
  intros HK Hvr Hur Hv2 Hv1 Hb Hb1 Hg H.
  set (V := (v1 * b + v2) * K + vr). set (U := u3 * K + ur).
  assert (HV : b * K <= V).
  { unfold V. assert (b <= v1 * b) by nia. nia. }
  assert (HVp : 0 < V) by nia.
  pose proof (Z.div_mod U V ltac:(lia)) as HD. pose proof (Z.mod_pos_bound U V HVp) as HM.
  assert (G : g * V < U + V).
  { unfold V at 1. replace (g * ((v1 * b + v2) * K + vr)) with (g * (v1 * b + v2) * K + g * vr) by ring.
    assert (g * vr < b * K) by nia. unfold U. nia. }
  nia.
Qed.

(** ** Two digits by one *)

Lemma bdd_loop_spec fuel : forall v1 v2 g c u3,
  16384 <= v1 < 32768 -> 0 <= v2 < 32768 -> 0 <= g < 32768 -> 0 <= c ->
  c <= 2147483647 ->
  (c < 1073741824 \/ g * v2 <= c) ->
  g * v1 * 32768 + c = u3 -> u3 / (v1 * 32768 + v2) <= g ->
  0 <= u3 ->
  1073741824 <= c + Z.of_nat fuel * (v1 * 32768) -> fuel <> O ->
  exists g', bdd_loop fuel v1 v2 g c = Some g' /\ g' = u3 / (v1 * 32768 + v2).
Proof.
  induction fuel as [|fuel IH]; intros v1 v2 g c u3 H1 H2 Hg Hc Hc2 Hc3 Hu Hq H0 HF HN; [congruence|].
  cbn [bdd_loop]. assert (0 <= g * v2 <= 32767 * 32767) by nia.
  rewrite int32_some by lia. rewrite radix_eq.
  assert (FIN : forall h, 0 <= h < 32768 -> h * (v1 * 32768 + v2) <= u3 ->
            u3 / (v1 * 32768 + v2) <= h -> h = u3 / (v1 * 32768 + v2)).
  { intros h Hh Hle Hq'. apply Z.le_antisymm; [|exact Hq'].
    apply Z.div_le_lower_bound; [lia|]. lia. }
  destruct (Z.ltb_spec c (g * v2)) as [L|L].
  - destruct Hc3 as [Hc3|Hc3]; [|lia].
    rewrite Z.shiftl_mul_pow2 by lia. change (2 ^ 15) with 32768.
    rewrite int32_some by lia.
    assert (Hq' : u3 / (v1 * 32768 + v2) <= g - 1).
    { pose proof (trial_lo 32768 1 v1 v2 0 u3 0 g). rewrite !Z.mul_1_r, !Z.add_0_r in H3.
      apply H3; try lia. }
    assert (Hg1 : 0 <= g - 1).
    { assert (0 <= u3 / (v1 * 32768 + v2)) by (apply Z.div_pos; lia). lia. }
    destruct (Z.leb_spec 1073741824 (c + v1 * 32768)) as [L2|L2].
    + eexists; split; [reflexivity|]. apply FIN; lia.
    + apply (IH v1 v2 (g - 1) (c + v1 * 32768) u3); lia.
  - eexists; split; [reflexivity|]. apply FIN; auto; nia.
Qed.

Lemma bdds_mulsub_spec vn un g cin : 0 <= vn < 32768 -> 0 <= un < 32768 -> 0 <= g < 32768 -> 0 <= cin < 32768 ->
  exists u' c, bdds_mulsub vn un g cin = Some (u', c) /\ 0 <= u' < 32768 /\ 0 <= c < 32768
    /\ u' - c * 32768 = un - vn * g - cin.
Proof.
  intros H1 H2 H3 H4. unfold bdds_mulsub. assert (0 <= vn * g <= 32767 * 32767) by nia.
  rewrite int32_some by lia. set (p := vn * g + cin).
  assert (Hp : p = vn * g + cin) by reflexivity. clearbody p. split_hd p.
  rewrite int32_some by lia. unfold radix_root.
  destruct (Z.ltb_spec (un - lo) 0); do 2 eexists; (split; [reflexivity|]); lia.
Qed.

(** With an exact guess nothing has to be added back. *)
Lemma digit_divide_subtract_spec v1 v2 g u0 u1 u2 :
  0 <= v1 < 32768 -> 0 <= v2 < 32768 -> 0 <= g < 32768 ->
  0 <= u0 < 32768 -> 0 <= u1 < 32768 -> 0 <= u2 < 32768 ->
  let U := (u0 * 32768 + u1) * 32768 + u2 in
  let V := v1 * 32768 + v2 in
  0 <= U - g * V < V ->
  exists x a b, digit_divide_subtract v1 v2 g (u0, u1, u2) = Some (g, (x, a, b))
    /\ 0 <= a < 32768 /\ 0 <= b < 32768 /\ a * 32768 + b = U - g * V.
Proof.
  intros H1 H2 H3 H4 H5 H6 U V HR. unfold digit_divide_subtract.
  destruct (bdds_mulsub_spec v2 u2 g 0) as (a2 & c & E1 & A2 & C & Q1); try lia. rewrite E1.
  destruct (bdds_mulsub_spec v1 u1 g c) as (a1 & c' & E2 & A1 & C' & Q2); try lia. rewrite E2.
  assert (EQ : a1 * 32768 + a2 + (u0 - c') * 1073741824 = U - g * V).
  { unfold U, V. clear - Q1 Q2.
    replace (g * (v1 * 32768 + v2)) with (32768 * (v1 * g) + v2 * g) by ring. lia. }
  assert (u0 - c' = 0) by (unfold V in *; lia).
  destruct (Z.eqb_spec c' 0).
  - do 3 eexists. split; [reflexivity|]. lia.
  - rewrite int32_some by lia. destruct (Z.ltb_spec (u0 - c') 0); [lia|].
    do 3 eexists. split; [reflexivity|]. lia.
Qed.

Lemma bdd_step_spec v1 v2 u0 u1 u2 :
  16384 <= v1 < 32768 -> 0 <= v2 < 32768 ->
  0 <= u0 < 32768 -> 0 <= u1 < 32768 -> 0 <= u2 < 32768 ->
  let U := (u0 * 32768 + u1) * 32768 + u2 in
  let V := v1 * 32768 + v2 in
  u0 * 32768 + u1 < V ->
  exists q x a b, bdd_step v1 v2 (u0, u1, u2) = Some (q, (x, a, b))
    /\ 0 <= q < 32768 /\ 0 <= a < 32768 /\ 0 <= b < 32768
    /\ q = U / V /\ a * 32768 + b = U mod V.
Proof.
  intros H1 H2 H3 H4 H5 U V HL. unfold bdd_step.
  assert (HV : 0 < V) by (unfold V; lia).
  assert (HU0 : 0 <= U) by (unfold U; lia).
  assert (HUV : U / V < 32768).
  { apply Z.div_lt_upper_bound; [exact HV|]. unfold U, V in *. lia. }
  assert (HUV0 : 0 <= U / V) by (apply Z.div_pos; lia).
  assert (FIN : forall g c, 0 <= g < 32768 -> 0 <= c <= 2147483647 -> (c < 1073741824 \/ g * v2 <= c) ->
      g * v1 * 32768 + c = U -> U / V <= g ->
      exists q x a b,
        (do guess' <- bdd_loop 4 v1 v2 g c; digit_divide_subtract v1 v2 guess' (u0, u1, u2)) = Some (q, (x, a, b))
        /\ 0 <= q < 32768 /\ 0 <= a < 32768 /\ 0 <= b < 32768
        /\ q = U / V /\ a * 32768 + b = U mod V).
  { intros g c Hg Hc Hc3 HE Hq.
    destruct (bdd_loop_spec 4 v1 v2 g c U) as (g' & E & Hg'); try lia; auto.
    rewrite E. fold V in Hg'.
    pose proof (Z.div_mod U V ltac:(lia)) as HD. pose proof (Z.mod_pos_bound U V HV) as HM.
    destruct (digit_divide_subtract_spec v1 v2 g' u0 u1 u2) as (x & a & b & E2 & A & B & Q); try lia.
    rewrite E2. exists g', x, a, b. split; [reflexivity|]. sp; try lia; auto.
    }
  destruct (Z.eqb_spec u0 v1) as [->|Hne].
  - rewrite hd_cons_eq by lia. rewrite int32_some by lia. unfold radix_root.
    apply FIN; lia.
  - assert (u0 < v1) by (unfold V in HL; lia).
    rewrite hd_cons_eq by lia. rewrite int32_some by lia.
    set (uu := u0 * 32768 + u1). assert (Huu : uu = u0 * 32768 + u1) by reflexivity. clearbody uu.
    assert (0 <= uu) by lia.
    rewrite Z.quot_div_nonneg, Z.rem_mod_nonneg by lia.
    pose proof (Z.div_mod uu v1 ltac:(lia)). pose proof (Z.mod_pos_bound uu v1 ltac:(lia)).
    rewrite hd_cons_eq by lia. rewrite int32_some by lia.
    set (g := uu / v1) in *. set (m := uu mod v1) in *. clearbody g m.
    assert (Hg : 0 <= g < 32768) by nia.
    apply FIN; try lia.
    + assert (U / V < g + 1); [|lia]. apply Z.div_lt_upper_bound; [exact HV|].
      unfold U, V. rewrite <- Huu. nia.
Qed.

Theorem digit_divide_spec uh ul v : dig uh -> dig ul -> 536870912 <= v < radix -> uh < v ->
  digit_divide uh ul v = Some ((uh * radix + ul) / v, (uh * radix + ul) mod v).
Proof.
  intros Hh Hl Hv HL. unfold dig in *. rewrite radix_eq in *. unfold digit_divide.
  assert (G : (let v1 := hd_high v in let v2 := hd_low v in
    do (q1, (_, a1, a2)) <- bdd_step v1 v2 (hd_high uh, hd_low uh, hd_high ul);
    do (q2, (_, b2, b3)) <- bdd_step v1 v2 (a1, a2, hd_low ul);
    do q <- int32 (hd_cons q1 q2); do r <- int32 (hd_cons b2 b3); Some (q, r))
    = Some ((uh * 1073741824 + ul) / v, (uh * 1073741824 + ul) mod v)).
  { cbv zeta. split_hd v. split_hd uh. split_hd ul.
    destruct (bdd_step_spec hi lo hi0 lo0 hi1) as (q1 & x & a1 & a2 & E1 & Q1 & A1 & A2 & HQ1 & HR1);
      try lia. rewrite E1.
    assert (Ev : v = hi * 32768 + lo) by lia. rewrite <- Ev in HQ1, HR1.
    set (U1 := (hi0 * 32768 + lo0) * 32768 + hi1) in *.
    assert (HU1 : U1 = (hi0 * 32768 + lo0) * 32768 + hi1) by reflexivity. clearbody U1.
    pose proof (Z.div_mod U1 v ltac:(lia)) as D1. pose proof (Z.mod_pos_bound U1 v ltac:(lia)) as M1.
    rewrite <- HQ1, <- HR1 in D1. rewrite <- HR1 in M1.
    destruct (bdd_step_spec hi lo a1 a2 lo1) as (q2 & x2 & b2 & b3 & E2 & Q2 & B2 & B3 & HQ2 & HR2);
      try lia. rewrite E2. rewrite <- Ev in HQ2, HR2.
    set (U2 := (a1 * 32768 + a2) * 32768 + lo1) in *.
    assert (HU2 : U2 = (a1 * 32768 + a2) * 32768 + lo1) by reflexivity. clearbody U2.
    pose proof (Z.div_mod U2 v ltac:(lia)) as D2. pose proof (Z.mod_pos_bound U2 v ltac:(lia)) as M2.
    rewrite <- HQ2, <- HR2 in D2. rewrite <- HR2 in M2.
    rewrite !hd_cons_eq by lia. rewrite !int32_some by lia.
    assert (EQ : uh * 1073741824 + ul = v * (q1 * 32768 + q2) + (b2 * 32768 + b3)) by lia.
    f_equal. f_equal.
    - apply Z.div_unique with (b2 * 32768 + b3); [left; lia|exact EQ].
    - apply Z.mod_unique with (q1 * 32768 + q2); [left; lia|exact EQ]. }
  destruct (Z.eqb_spec uh 0) as [E0|Hne]; cbn [andb]; [|exact G].
  destruct (Z.ltb_spec ul v) as [L|L].
  { rewrite E0, Z.mul_0_l, Z.add_0_l. rewrite Z.div_small, Z.mod_small by lia. reflexivity. }
  destruct (Z.eqb_spec ul v) as [E1|Hn]; [|exact G].
  rewrite E0, E1, Z.mul_0_l, Z.add_0_l. rewrite Z.div_same, Z.mod_same by lia. reflexivity.
Qed.

(** ** Shifting to a normalized divisor *)

Lemma normalize_loop_spec s : 0 < s < 30 -> forall ds c, digs ds -> 0 <= c < 2 ^ s ->
  exists t c', normalize_loop ds s c = Some (t, c') /\ digs t /\ length t = length ds
    /\ 0 <= c' < 2 ^ s /\ val t + bp (length ds) * c' = val ds * 2 ^ s + c.
Proof.
  intros Hs. assert (EP : 2 ^ (30 - s) * 2 ^ s = 1073741824).
  { rewrite <- Z.pow_add_r by lia. replace (30 - s + s) with 30 by lia. reflexivity. }
  pose proof (Z.pow_pos_nonneg 2 s ltac:(lia) ltac:(lia)) as P1.
  pose proof (Z.pow_pos_nonneg 2 (30 - s) ltac:(lia) ltac:(lia)) as P2.
  induction ds as [|d ds IH]; intros c HD Hc; cbn [normalize_loop].
  - exists [], c. cbn [val length]. rewrite bp_0. sp; auto; lia.
  - inv_digs HD. unfold dig in Hd. rewrite radix_eq in Hd. unfold digit_length.
    rewrite Z.shiftl_1_l.
    replace (2 ^ (30 - s) - 1) with (Z.ones (30 - s)) by (rewrite Z.ones_equiv; lia).
    rewrite Z.land_ones by lia. rewrite lor_add by lia. rewrite Z.shiftr_div_pow2 by lia.
    pose proof (Z.div_mod d (2 ^ (30 - s)) ltac:(lia)). pose proof (Z.mod_pos_bound d (2 ^ (30 - s)) ltac:(lia)).
    set (m := d mod 2 ^ (30 - s)) in *. set (h := d / 2 ^ (30 - s)) in *. clearbody m h.
    set (S2 := 2 ^ s) in *. set (T2 := 2 ^ (30 - s)) in *. clearbody S2 T2.
    assert (Hh : 0 <= h < S2) by nia.
    assert (Hm : 0 <= m * S2 + c < 1073741824) by nia.
    rewrite int32_some by lia.
    destruct (IH h HD Hh) as (t & c' & E & Ht & Hl & Hc' & Hv). rewrite E.
    exists (m * S2 + c :: t), c'. sp; auto; try lia.
    + apply dig_cons; auto.
    + cbn; lia.
    + cbn [val length]. rewrite bp_S, radix_eq. nia.
Qed.
Lemma normalization_room ds s : 0 < s < 30 -> digs ds ->
  exists t, normalization ds s true = Some t /\ digs t /\ length t = S (length ds) /\ val t = val ds * 2 ^ s
    /\ 0 <= last t 0 < 2 ^ s.
Proof.
  intros Hs HD. unfold normalization.
  assert (2 ^ s < 2 ^ 30) by (apply Z.pow_lt_mono_r; lia). change (2 ^ 30) with 1073741824 in H.
  destruct (normalize_loop_spec s Hs ds 0 HD) as (t & c & E & Ht & Hl & Hc & Hv).
  { pose proof (Z.pow_pos_nonneg 2 s ltac:(lia) ltac:(lia)). lia. }
  rewrite E. exists (t ++ [c]). sp; try (rewrite last_last; lia).
  - apply digs_app; split; auto. constructor; [unfold dig; rewrite radix_eq; lia|constructor].
  - rewrite app_length; cbn; lia.
  - rewrite val_app. cbn [val]. rewrite Hl. lia.
Qed.
Lemma normalization_fit ds s : 0 < s < 30 -> digs ds -> val ds * 2 ^ s < bp (length ds) ->
  exists t, normalization ds s false = Some t /\ digs t /\ length t = length ds /\ val t = val ds * 2 ^ s.
Proof.
  intros Hs HD HB. unfold normalization.
  destruct (normalize_loop_spec s Hs ds 0 HD) as (t & c & E & Ht & Hl & Hc & Hv).
  { pose proof (Z.pow_pos_nonneg 2 s ltac:(lia) ltac:(lia)). lia. }
  rewrite E. pose proof (val_range t Ht). pose proof (bp_pos (length ds)).
  assert (c = 0) by nia. subst c. cbn [Z.eqb]. exists t. sp; auto; lia.
Qed.
Lemma unnormalize_loop_spec s : 0 < s < 30 -> forall ds, digs ds ->
  exists t m, unnormalize_loop ds s = Some (t, m * 2 ^ (30 - s)) /\ digs t /\ length t = length ds
    /\ 0 <= m < 2 ^ s /\ val ds = val t * 2 ^ s + m.
Proof.
  intros Hs. assert (EP : 2 ^ (30 - s) * 2 ^ s = 1073741824).
  { rewrite <- Z.pow_add_r by lia. replace (30 - s + s) with 30 by lia. reflexivity. }
  pose proof (Z.pow_pos_nonneg 2 s ltac:(lia) ltac:(lia)) as P1.
  pose proof (Z.pow_pos_nonneg 2 (30 - s) ltac:(lia) ltac:(lia)) as P2.
  induction ds as [|d ds IH]; intros HD; cbn [unnormalize_loop].
  - exists [], 0. cbn [val]. sp; auto; lia.
  - inv_digs HD. destruct (IH HD) as (t & m & E & Ht & Hl & Hm & Hv). rewrite E.
    unfold dig in Hd. rewrite radix_eq in Hd. unfold digit_length.
    rewrite Z.shiftl_1_l. replace (2 ^ s - 1) with (Z.ones s) by (rewrite Z.ones_equiv; lia).
    rewrite Z.land_ones, Z.shiftr_div_pow2 by lia.
    pose proof (Z.div_mod d (2 ^ s) ltac:(lia)). pose proof (Z.mod_pos_bound d (2 ^ s) ltac:(lia)).
    set (l := d mod 2 ^ s) in *. set (h := d / 2 ^ s) in *. clearbody l h.
    assert (Hh : 0 <= h < 2 ^ (30 - s)) by nia.
    rewrite Z.lor_comm. replace (m * 2 ^ (30 - s)) with (Z.shiftl m (30 - s)) by (rewrite Z.shiftl_mul_pow2; lia).
    rewrite lor_add by lia. rewrite Z.shiftl_mul_pow2 by lia.
    set (S2 := 2 ^ s) in *. set (T2 := 2 ^ (30 - s)) in *. clearbody S2 T2.
    assert (0 <= m * T2 + h < 1073741824) by nia.
    assert (0 <= l * T2 < 1073741824) by nia.
    rewrite !int32_some by lia.
    exists (m * T2 + h :: t), l. sp; auto; try lia.
    + apply dig_cons; auto.
    + cbn; lia.
    + cbn [val]. rewrite radix_eq. nia.
Qed.
Lemma unnormalization_spec ds s v : 0 < s < 30 -> digs ds -> val ds = v * 2 ^ s ->
  exists t, unnormalization ds s = Some t /\ digs t /\ length t = length ds /\ val t = v.
Proof.
  intros Hs HD HV. unfold unnormalization.
  destruct (unnormalize_loop_spec s Hs ds HD) as (t & m & E & Ht & Hl & Hm & Hv). rewrite E.
  assert (Hvt : (v - val t) * 2 ^ s = m) by lia.
  assert (Hz : v - val t = 0) by nia. rewrite Hz in Hvt. assert (m = 0) by lia. subst m.
  rewrite Z.mul_0_l. cbn [Z.eqb]. exists t. sp; auto; lia.
Qed.

Lemma norm_shift_spec fuel : forall v s, 0 < v < 1073741824 -> 0 <= s ->
  536870912 <= v * 2 ^ (Z.of_nat fuel - 1) -> fuel <> O ->
  exists k, 0 <= k < Z.of_nat fuel /\ norm_shift fuel v s = Some (v * 2 ^ k, s + k)
    /\ 536870912 <= v * 2 ^ k < 1073741824.
Proof.
  induction fuel as [|fuel IH]; intros v s Hv Hs HB HN; [congruence|]. cbn [norm_shift].
  change (radix / 2) with 536870912.
  destruct (Z.ltb_spec v 536870912) as [L|L].
  - rewrite Z.shiftl_mul_pow2 by lia. change (2 ^ 1) with 2.
    destruct fuel as [|fuel].
    { cbn in HB. lia. }
    destruct (IH (v * 2) (s + 1)) as (k & Hk & E & HK); try lia.
    { replace (Z.of_nat (S (S fuel)) - 1) with (Z.succ (Z.of_nat (S fuel) - 1)) in HB by lia.
      rewrite Z.pow_succ_r in HB by lia. lia. }
    exists (k + 1). rewrite Z.pow_add_r by lia. change (2 ^ 1) with 2.
    split; [lia|]. split; [rewrite E; f_equal; f_equal; lia|lia].
  - exists 0. rewrite Z.mul_1_r, Z.add_0_r. split; [lia|]. split; [reflexivity|lia].
Qed.
Lemma norm_shift_top v : 0 < v < 1073741824 ->
  exists k, 0 <= k < 30 /\ norm_shift 31 v 0 = Some (v * 2 ^ k, k) /\ 536870912 <= v * 2 ^ k < 1073741824.
Proof.
  intros Hv. destruct (norm_shift_spec 31 v 0) as (k & Hk & E & HK); try lia.
  exists k. cbn in Hk. split; [|split; [exact E|exact HK]].
  assert (k <> 30); [|lia]. intros ->. change (2 ^ 30) with 1073741824 in HK. lia.
Qed.

(** ** Divisors of one digit *)

Lemma medium_loop_spec ds d : digs ds -> 536870912 <= d < radix ->
  exists t r, medium_loop ds d = Some (t, r) /\ digs t /\ length t = length ds
    /\ 0 <= r < d /\ val ds = val t * d + r.
Proof.
  intros HD Hd. induction ds as [|u ds IH]; cbn [medium_loop].
  - exists [], 0. cbn. sp; auto; lia.
  - inv_digs HD. destruct (IH HD) as (t & r & E & Ht & Hl & Hr & Hv). rewrite E.
    rewrite digit_divide_spec; auto; try lia; [|unfold dig; lia].
    unfold dig in Hd0. rewrite radix_eq in *.
    set (W := r * 1073741824 + u). assert (HW : W = r * 1073741824 + u) by reflexivity. clearbody W.
    pose proof (Z.div_mod W d ltac:(lia)). pose proof (Z.mod_pos_bound W d ltac:(lia)).
    assert (0 <= W / d < 1073741824).
    { split; [apply Z.div_pos; lia|apply Z.div_lt_upper_bound; nia]. }
    do 2 eexists. split; [reflexivity|]. sp; auto; try lia.
    + apply dig_cons; auto.
    + cbn; lia.
    + cbn [val]. rewrite radix_eq. nia.
Qed.
Lemma divide_medium_spec n d qn rn : digs n -> n <> [] -> 0 < d < radix ->
  div_ok n [d] qn rn (divide_medium n d qn rn).
Proof.
  intros Hn Nn Hd. unfold divide_medium. rewrite radix_eq in Hd.
  destruct (norm_shift_top d Hd) as (k & Hk & E & HK). rewrite E.
  destruct (Z.eqb_spec k 0) as [->|Hk0].
  - rewrite Z.mul_1_r in *.
    destruct (medium_loop_spec n d Hn ltac:(rewrite radix_eq; lia)) as (t & r & E2 & Ht & Hl & Hr & Hv).
    rewrite E2.
    destruct (trim_spec qn t Ht) as [N V].
    { destruct t; [destruct n; [congruence|discriminate]|discriminate]. }
    destruct (digit_to_bigint_spec r rn ltac:(unfold dig; rewrite radix_eq; lia)) as [N' V'].
    do 2 eexists. split; [reflexivity|]. split; [exact N|]. split; [exact N'|].
    exists (val t), r. cbn [val]. pose proof (val_range t Ht). sp; auto; lia.
  - destruct (normalization_room n k ltac:(lia) Hn) as (u & Eu & Hu & Hlu & Hvu & _). rewrite Eu.
    destruct (medium_loop_spec u (d * 2 ^ k) Hu ltac:(rewrite radix_eq; lia)) as (t & r & E2 & Ht & Hl & Hr & Hv).
    rewrite E2.
    destruct (trim_spec qn t Ht) as [N V].
    { intros ->. cbn in Hl. lia. }
    pose proof (Z.pow_pos_nonneg 2 k ltac:(lia) ltac:(lia)) as P.
    rewrite Z.shiftr_div_pow2 by lia.
    set (S2 := 2 ^ k) in *. clearbody S2.
    assert (Er : r = S2 * (r / S2)).
    { apply Z.div_exact; [lia|]. symmetry. apply Z.mod_unique with (val n - val t * d); [left; lia|]. lia. }
    set (r' := r / S2) in *. clearbody r'.
    assert (Hr' : 0 <= r' < d) by nia.
    destruct (digit_to_bigint_spec r' rn ltac:(unfold dig; rewrite radix_eq; lia)) as [N' V'].
    do 2 eexists. split; [reflexivity|]. split; [exact N|]. split; [exact N'|].
    exists (val t), r'. cbn [val]. pose proof (val_range t Ht). sp; auto; try lia. nia.
Qed.

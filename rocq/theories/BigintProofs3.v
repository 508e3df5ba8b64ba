(** * Division by divisors of several digits. *)

From Coq Require Import ZArith List Bool Lia.
From Verif Require Import BigintModel BigintProofs BigintProofs2.
Import ListNotations.
Open Scope Z_scope.

Lemma half_prod a b : 0 <= a < 32768 -> 0 <= b < 32768 -> 0 <= a * b <= 32767 * 32767.
Proof. nia. Qed.
Lemma dig_prod a b : 0 <= a < 1073741824 -> 0 <= b < 1073741824 -> 0 <= a * b <= 1073741823 * 1073741823.
Proof. nia. Qed.
Lemma low_part x P t : 0 <= t < P -> x * P + t < 0 -> x < 0.
Proof. nia. Qed.
Lemma low_part_neg x P t : 0 <= t < P -> x < 0 -> t + P * x < 0.
Proof. nia. Qed.
Lemma low_part_pos x P t : 0 <= t < P -> 0 <= x -> 0 <= t + P * x.
Proof. nia. Qed.
(** q and q + 1 are told apart by the sign of the remainder. *)
Lemma right_guess V q m g : 0 <= m < V -> q <= g <= q + 1 ->
  (0 <= V * q + m - g * V -> g = q) /\ (V * q + m - g * V < 0 -> g = q + 1).
Proof. intros Hm Hg. assert (g = q \/ g = q + 1) as [-> | ->] by lia; split; intros; auto; lia. Qed.

(** ** Subtracting a multiple of the divisor *)

Lemma mulsub_loop_spec vs : forall us rest gh gl carry,
  0 <= gh < 32768 -> 0 <= gl < 32768 -> dig carry -> digs vs -> digs us -> length us = length vs ->
  exists t c, mulsub_loop vs (us ++ rest) gh gl carry = Some (t, rest, c)
    /\ digs t /\ dig c /\ length t = length vs
    /\ val t - bp (length vs) * c = val us - (gh * 32768 + gl) * val vs - carry.
Proof.
  induction vs as [|v vs IH]; intros us rest gh gl carry Hgh Hgl Hc Hv Hu HL.
  - destruct us; [|discriminate]. cbn [mulsub_loop app]. exists [], carry. cbn [val length].
    rewrite bp_0. sp; auto; lia.
  - destruct us as [|u us]; [discriminate|]. cbn in HL. injection HL as HL.
    inv_digs Hv. inv_digs Hu. cbn [app mulsub_loop]. unfold dig in Hc, Hd, Hd0. rewrite radix_eq in *.
    split_hd v. split_hd carry.
    assert (Hhi : 0 <= hi < 32768) by lia. assert (Hhi0 : 0 <= hi0 < 32768) by lia.
    assert (P1 : 0 <= lo * gl <= 32767 * 32767) by (apply half_prod; lia).
    assert (P2 : 0 <= lo * gh <= 32767 * 32767) by (apply half_prod; lia).
    assert (P3 : 0 <= hi * gl <= 32767 * 32767) by (apply half_prod; lia).
    assert (P4 : 0 <= hi * gh <= 32767 * 32767) by (apply half_prod; lia).
    rewrite int32_some by lia.
    set (pl := lo * gl + lo0). assert (Hpl : pl = lo * gl + lo0) by reflexivity. clearbody pl.
    split_hd pl. rewrite int32_some by lia.
    set (ph := lo * gh + hi * gl + hi1 + hi0).
    assert (Hph : ph = lo * gh + hi * gl + hi1 + hi0) by reflexivity. clearbody ph.
    split_hd ph. rewrite hd_cons_eq by lia. rewrite int32_some by lia.
    assert (EQ : (lo2 * 32768 + lo1) + 1073741824 * (hi * gh + hi2) = (gh * 32768 + gl) * v + carry).
    { replace ((gh * 32768 + gl) * v) with
        (1073741824 * (hi * gh) + 32768 * (lo * gh + hi * gl) + lo * gl) by (subst v; ring). lia. }
    assert (HG : (gh * 32768 + gl) * v <= 1073741823 * 1073741823) by (apply dig_prod; lia).
    set (W := lo2 * 32768 + lo1) in *. assert (HW : 0 <= W < 1073741824) by (unfold W; lia). clearbody W.
    set (Q := hi * gh + hi2) in *. 
    assert (HQ : 0 <= Q <= 1073741823).
    { split; [unfold Q; lia|]. clearbody Q. lia. }
    clearbody Q.
    destruct (Z.ltb_spec (u - W) 0) as [L|L].
    + assert (HQ' : Q <= 1073741822) by lia. rewrite int32_some by lia.
      destruct (IH us rest gh gl (Q + 1)) as (t & c & E & Ht & Hcd & Hlt & Hvt); auto.
      { unfold dig. rewrite radix_eq. lia. }
      rewrite E. exists (u - W + 1073741824 :: t), c. sp; auto.
      * apply dig_cons; auto. unfold dig; rewrite radix_eq; lia.
      * cbn; lia.
      * cbn [val length]. rewrite bp_S, radix_eq.
        replace ((gh * 32768 + gl) * (v + 1073741824 * val vs))
          with ((gh * 32768 + gl) * v + 1073741824 * ((gh * 32768 + gl) * val vs)) by ring.
        lia.
    + rewrite int32_some by lia.
      destruct (IH us rest gh gl Q) as (t & c & E & Ht & Hcd & Hlt & Hvt); auto.
      { unfold dig. rewrite radix_eq. lia. }
      rewrite E. exists (u - W :: t), c. sp; auto.
      * apply dig_cons; auto. unfold dig; rewrite radix_eq; lia.
      * cbn; lia.
      * cbn [val length]. rewrite bp_S, radix_eq.
        replace ((gh * 32768 + gl) * (v + 1073741824 * val vs))
          with ((gh * 32768 + gl) * v + 1073741824 * ((gh * 32768 + gl) * val vs)) by ring.
        lia.
Qed.
Lemma addback_loop_spec vs : forall us c, digs vs -> digs us -> length us = length vs -> 0 <= c <= 1 ->
  exists t c', addback_loop vs us c = Some (t, c') /\ digs t /\ length t = length vs /\ 0 <= c' <= 1
    /\ val t + bp (length vs) * c' = val us + val vs + c.
Proof.
  induction vs as [|v vs IH]; intros us c Hv Hu HL Hc; cbn [addback_loop].
  - destruct us; [|discriminate]. exists [], c. cbn [val length]. rewrite bp_0. sp; auto; lia.
  - destruct us as [|u us]; [discriminate|]. cbn in HL. injection HL as HL.
    inv_digs Hv. inv_digs Hu. unfold dig in Hd, Hd0. rewrite radix_eq in *.
    rewrite int32_some by lia.
    destruct (Z.ltb_spec (v + u + c) 1073741824).
    + destruct (IH us 0 Hv Hu HL ltac:(lia)) as (t & c' & E & Ht & Hl & Hc' & Hvt). rewrite E.
      exists (v + u + c :: t), c'. sp; auto; try lia.
      * apply dig_cons; auto. unfold dig; rewrite radix_eq; lia.
      * cbn; lia.
      * cbn [val length]. rewrite bp_S, radix_eq. lia.
    + destruct (IH us 1 Hv Hu HL ltac:(lia)) as (t & c' & E & Ht & Hl & Hc' & Hvt). rewrite E.
      exists (v + u + c - 1073741824 :: t), c'. sp; auto; try lia.
      * apply dig_cons; auto. unfold dig; rewrite radix_eq; lia.
      * cbn; lia.
      * cbn [val length]. rewrite bp_S, radix_eq. lia.
Qed.

(** A guess that is right or one too large is turned into the right digit. *)
Lemma divide_subtract_spec v g w1 top above :
  digs v -> digs w1 -> dig top -> length w1 = length v -> dig g ->
  let W := val w1 + bp (length v) * top in
  0 < val v -> W / val v <= g <= W / val v + 1 -> W < radix * val v ->
  exists w1', divide_subtract v g (w1 ++ top :: above) = Some (W / val v, w1' ++ 0 :: above)
    /\ digs w1' /\ length w1' = length v /\ val w1' = W mod val v.
Proof.
  intros Hv Hw Ht HL Hg W HV HQ HB. unfold divide_subtract.
  pose proof (Z.div_mod W (val v) ltac:(lia)) as HD. pose proof (Z.mod_pos_bound W (val v) HV) as HM.
  pose proof (bp_pos (length v)) as HP. pose proof (val_range v Hv) as RV.
  pose proof (val_range w1 Hw) as RW. rewrite HL in RW.
  unfold dig in Ht, Hg. rewrite radix_eq in *.
  set (q := W / val v) in *. set (m := W mod val v) in *. clearbody q m.
  assert (Hq0 : 0 <= q). { assert (0 <= W) by (unfold W; nia). nia. }
  (* the remainder fits below the top digit *)
  assert (FIN : forall t tp, digs t -> length t = length v -> val t + bp (length v) * tp = m ->
            tp = 0 /\ val t = m).
  { intros t tp Hdt Hlt HE. pose proof (val_range t Hdt). rewrite Hlt in H.
    assert (tp = 0) by nia. subst tp. split; auto. lia. }
  destruct (Z.eqb_spec g 0) as [->|Hg0].
  { assert (q = 0) by lia. rewrite H in *. destruct (FIN w1 top Hw HL) as [E1 E2]; [unfold W in HD; lia|].
    subst top. exists w1. sp; auto. }
  rewrite (hd_low_eq g), (hd_high_eq g).
  pose proof (Z.div_mod g 32768 ltac:(lia)) as DG. pose proof (Z.mod_pos_bound g 32768 ltac:(lia)) as MG.
  destruct (mulsub_loop_spec v w1 (top :: above) (g / 32768) (g mod 32768) 0) as (t & c & E & Htt & Hc & Hlt & Hvt);
    auto; try lia. { unfold dig; rewrite radix_eq; lia. }
  rewrite E. replace (g / 32768 * 32768 + g mod 32768) with g in Hvt by lia. clear DG MG E.
  unfold dig in Hc. rewrite radix_eq in Hc.
  assert (HE : val t + bp (length v) * (top - c) = W - g * val v) by (unfold W; lia).
  pose proof (val_range t Htt) as RT. rewrite Hlt in RT.
  destruct (Z.eqb_spec c 0) as [->|Hc0].
  { assert (Hgq : g = q).
    { destruct (right_guess (val v) q m g HM HQ) as [R _]. apply R. rewrite <- HD, <- HE. apply low_part_pos; lia. }
    subst g. destruct (FIN t top Htt Hlt) as [E1 E2]; [lia|]. subst top.
    exists t. sp; auto. }
  rewrite int32_some by lia.
  destruct (Z.ltb_spec (top - c) 0) as [L|L].
  - assert (Hgq : g = q + 1).
    { destruct (right_guess (val v) q m g HM HQ) as [_ R]. apply R. rewrite <- HD, <- HE. apply low_part_neg; lia. }
    destruct (addback_loop_spec v t 0 Hv Htt Hlt ltac:(lia)) as (t' & c' & E & Ht' & Hlt' & Hc' & Hvt').
    rewrite E.
    destruct (FIN t' (c' + (top - c)) Ht' Hlt') as [E1 E2].
    { subst g. lia. }
    assert (c' = 1 /\ top - c = -1) as [-> E3] by lia. cbn [Z.eqb].
    rewrite E3. rewrite int32_some by lia.
    change (-1 + 1073741824 + 1 <? 1073741824) with false. cbv iota.
    exists t'. subst g. replace (q + 1 - 1) with q by lia. sp; auto.
  - assert (Hgq : g = q).
    { destruct (right_guess (val v) q m g HM HQ) as [R _]. apply R. rewrite <- HD, <- HE. apply low_part_pos; lia. }
    subst g. destruct (FIN t (top - c) Htt Hlt) as [E1 E2]; [lia|]. rewrite E1.
    exists t. sp; auto.
Qed.

(** ** Guessing a quotient digit *)

Lemma guess_loop_spec fuel : forall v1 v2 hi lo g ch cl K vr ur, v2 = 32768 * hi + lo -> 0 <= lo < 32768 ->
  536870912 <= v1 < 1073741824 -> dig v2 -> dig g -> dig cl -> 0 <= ch <= 2147483647 ->
  (ch < 1073741824 \/ g * v2 <= ch * 1073741824 + cl) ->
  0 < K -> 0 <= vr < K -> 0 <= ur < K ->
  let u3 := (g * v1 + ch) * 1073741824 + cl in
  let q := (u3 * K + ur) / ((v1 * 1073741824 + v2) * K + vr) in
  q <= g -> 1073741824 <= ch + Z.of_nat fuel * v1 -> fuel <> O ->
  exists g', guess_loop fuel v1 hi lo g ch cl = Some g' /\ q <= g' <= q + 1 /\ dig g'.
Proof.
  induction fuel as [|fuel IH]; intros v1 v2 hi lo g ch cl K vr ur H H0 H1 H2 Hg Hcl Hch Hc3 HK Hvr Hur u3 q Hq HF HN;
    [congruence|].
  cbn [guess_loop]. unfold dig in *. rewrite radix_eq in *.
  assert (HV : 0 < (v1 * 1073741824 + v2) * K + vr) by nia.
  assert (Hq0 : 0 <= q).
  { unfold q. apply Z.div_pos; [|exact HV]. unfold u3. nia. }
  assert (FIN : forall h, 0 <= h < 1073741824 -> h * (v1 * 1073741824 + v2) <= u3 -> h <= q + 1).
  { intros h Hh Hle. apply trial_hi; try lia. }
  split_hd g.
  assert (Hhi : 0 <= hi < 32768) by lia. assert (Hhi0 : 0 <= hi0 < 32768) by lia.
  assert (P1 : 0 <= lo * lo0 <= 32767 * 32767) by (apply half_prod; lia).
  assert (P2 : 0 <= lo * hi0 <= 32767 * 32767) by (apply half_prod; lia).
  assert (P3 : 0 <= hi * lo0 <= 32767 * 32767) by (apply half_prod; lia).
  assert (P4 : 0 <= hi * hi0 <= 32767 * 32767) by (apply half_prod; lia).
  rewrite int32_some by lia.
  set (pl := lo * lo0). assert (Hpl : pl = lo * lo0) by reflexivity. clearbody pl.
  split_hd pl. rewrite int32_some by lia.
  set (ph := lo * hi0 + hi * lo0 + hi1).
  assert (Hph : ph = lo * hi0 + hi * lo0 + hi1) by reflexivity. clearbody ph. split_hd ph.
  rewrite hd_cons_eq by lia. rewrite int32_some by lia. rewrite int32_some by lia.
  assert (EQ : (hi * hi0 + hi2) * 1073741824 + (lo2 * 32768 + lo1) = g * v2).
  { replace (g * v2) with (1073741824 * (hi * hi0) + 32768 * (lo * hi0 + hi * lo0) + lo * lo0)
      by (rewrite H, H3; ring). lia. }
  set (PH := hi * hi0 + hi2) in *. set (PL := lo2 * 32768 + lo1) in *.
  assert (HPL : 0 <= PL < 1073741824) by (unfold PL; lia). clearbody PH PL.
  assert (TEST : ((PH <? ch) || ((ch =? PH) && (PL <=? cl)))%bool = true <-> g * v2 <= ch * 1073741824 + cl).
  { destruct (Z.ltb_spec PH ch), (Z.eqb_spec ch PH), (Z.leb_spec PL cl); cbn; split; intros; try lia; try discriminate; auto. }
  destruct ((PH <? ch) || ((ch =? PH) && (PL <=? cl)))%bool eqn:T.
  - assert (Hle : g * v2 <= ch * 1073741824 + cl) by (apply TEST; reflexivity). clear TEST T.
    exists g. split; [reflexivity|]. split; [split; [exact Hq|]|lia].
    apply FIN; [lia|]. unfold u3. lia.
  - assert (Hgt : ch * 1073741824 + cl < g * v2).
    { destruct (Z.lt_ge_cases (ch * 1073741824 + cl) (g * v2)) as [|C]; auto.
      apply TEST in C. discriminate. }
    clear TEST T. destruct Hc3 as [Hc3|Hc3]; [|lia].
    rewrite int32_some by lia.
    assert (Hq' : q <= g - 1).
    { unfold q. apply trial_lo; try lia. }
    assert (Eu : (g - 1) * v1 + (ch + v1) = g * v1 + ch) by ring.
    destruct (Z.leb_spec 1073741824 (ch + v1)) as [L|L].
    + exists (g - 1). split; [reflexivity|]. split; [split; [exact Hq'|]|lia].
      apply FIN; [lia|]. unfold u3. rewrite <- Eu.
      assert ((g - 1) * v2 <= 1073741823 * 1073741823) by (apply dig_prod; lia). lia.
    + destruct (IH v1 v2 hi lo (g - 1) (ch + v1) cl K vr ur) as (g' & E & Hg'); try lia.
      { rewrite Eu. exact Hq'. }
      rewrite Eu in Hg'. exists g'. split; [exact E|]. exact Hg'.
Qed.

(** ** One quotient digit after the other *)

Lemma last_three (l : list Z) n : length l = S n -> (2 <= n)%nat ->
  exists lr a b c, l = lr ++ [a; b; c] /\ length lr = (n - 2)%nat.
Proof.
  intros HL Hn.
  destruct (exists_last (l := l)) as (l1 & c & ->). { intros ->; cbn in HL; lia. }
  rewrite app_length in HL; cbn in HL.
  destruct (exists_last (l := l1)) as (l2 & b & ->). { intros ->; cbn in HL; lia. }
  rewrite app_length in HL; cbn in HL.
  destruct (exists_last (l := l2)) as (l3 & a & ->). { intros ->; cbn in HL; lia. }
  rewrite app_length in HL; cbn in HL.
  exists l3, a, b, c. rewrite <- !app_assoc. split; [reflexivity|lia].
Qed.
Lemma first_guess_spec uj uj1 uj2 v1 v2 K vr ur :
  536870912 <= v1 < 1073741824 -> dig v2 -> dig uj1 -> dig uj2 -> 0 <= uj <= v1 ->
  0 < K -> 0 <= vr < K -> 0 <= ur < K ->
  let W := ((uj * 1073741824 + uj1) * 1073741824 + uj2) * K + ur in
  let V := (v1 * 1073741824 + v2) * K + vr in
  W < 1073741824 * V ->
  exists g ch, first_guess uj uj1 uj2 v1 = Some (g, ch) /\ dig g /\ 0 <= ch <= 2147483647
    /\ g * v1 + ch = uj * 1073741824 + uj1 /\ W / V <= g
    /\ (ch < 1073741824 \/ g * v2 <= ch * 1073741824 + uj2)
    /\ 1073741824 <= ch + 4 * v1.
Proof.
  intros H1 H2 Hu1 Hu2 Huj HK Hvr Hur W V HWV. unfold first_guess. unfold dig in *. rewrite radix_eq in *.
  assert (HV : 0 < V) by (unfold V; nia).
  destruct (Z.eqb_spec uj v1) as [->|NE].
  - rewrite int32_some by lia. exists (1073741824 - 1), (uj1 + v1). split; [reflexivity|].
    repeat split; try lia.
    assert (W / V < 1073741824) by (apply Z.div_lt_upper_bound; lia). lia.
  - rewrite digit_divide_spec; rewrite ?radix_eq; try (unfold dig; rewrite ?radix_eq); try lia.
    pose proof (Z.div_mod (uj * 1073741824 + uj1) v1 ltac:(lia)) as DM.
    pose proof (Z.mod_pos_bound (uj * 1073741824 + uj1) v1 ltac:(lia)) as MB.
    assert (QB : (uj * 1073741824 + uj1) / v1 < 1073741824) by (apply Z.div_lt_upper_bound; lia).
    assert (QP : 0 <= (uj * 1073741824 + uj1) / v1) by (apply Z.div_pos; lia).
    set (g := (uj * 1073741824 + uj1) / v1) in *. set (ch := (uj * 1073741824 + uj1) mod v1) in *.
    clearbody g ch.
    exists g, ch. split; [reflexivity|]. repeat split; try lia.
    assert (W / V <= (g + 1) - 1); [|lia]. unfold W, V. apply trial_lo; try lia.
Qed.

Lemma val3 lr a b c : val (lr ++ [a; b; c])
  = ((c * 1073741824 + b) * 1073741824 + a) * bp (length lr) + val lr.
Proof. rewrite val_app. cbn [val]. rewrite radix_eq. ring. Qed.
Lemma val2 lr a b : val (lr ++ [a; b]) = (b * 1073741824 + a) * bp (length lr) + val lr.
Proof. rewrite val_app. cbn [val]. rewrite radix_eq. ring. Qed.

Lemma digs_inv d t : digs (d :: t) -> dig d /\ digs t.
Proof. intros H. inv_digs H. auto. Qed.
Lemma divide_normalized_spec v vr v2 v1 : v = vr ++ [v2; v1] -> digs v -> 536870912 <= v1 ->
  forall j lo hi zs, digs lo -> digs hi -> length lo = j -> length hi = length v -> val hi < val v ->
  exists r q, divide_normalized j (lo ++ hi ++ zs) v = Some (r ++ repeat 0 j ++ zs, q)
    /\ digs r /\ digs q /\ length q = j /\ length r = length v
    /\ val lo + bp j * val hi = val q * val v + val r /\ 0 <= val r < val v.
Proof.
  intros Ev Hv H1.
  assert (Lv : length v = (2 + length vr)%nat) by (rewrite Ev, app_length; cbn; lia).
  assert (Hparts : digs vr /\ dig v2 /\ dig v1).
  { rewrite Ev in Hv. clear Ev Lv. apply digs_app in Hv as [A B]. inv_digs B. inv_digs B. auto. }
  destruct Hparts as (Hvr & Hv2 & Hv1).
  assert (VV : val v = (v1 * 1073741824 + v2) * bp (length vr) + val vr) by (rewrite Ev; apply val2).
  assert (N1 : nth_error v (length v - 1) = Some v1).
  { rewrite Lv. replace (2 + length vr - 1)%nat with (length vr + 1)%nat by lia. rewrite Ev.
    rewrite nth_error_app2 by lia. replace (length vr + 1 - length vr)%nat with 1%nat by lia. reflexivity. }
  assert (N2 : nth_error v (length v - 2) = Some v2).
  { rewrite Lv. replace (2 + length vr - 2)%nat with (length vr + 0)%nat by lia. rewrite Ev.
    rewrite nth_error_app2 by lia. replace (length vr + 0 - length vr)%nat with 0%nat by lia. reflexivity. }
  pose proof (val_range vr Hvr) as RV. pose proof (bp_pos (length vr)) as HK.
  unfold dig in Hv1. rewrite radix_eq in Hv1. clear Ev.
  induction j as [|j IH]; intros lo hi zs Hlo Hhi Llo Lhi Lt.
  - destruct lo; [|discriminate]. cbn [divide_normalized app repeat]. exists hi, [].
    pose proof (val_range hi Hhi). cbn [val length]. rewrite bp_0. sp; auto; try lia.
  - destruct (exists_last (l := lo)) as (lo' & x & El). { intros ->; discriminate. } subst lo.
    apply digs_app in Hlo as [Hlo' Hx]. apply digs_inv in Hx as [Hd _].
    rewrite app_length in Llo; cbn in Llo. assert (Llo' : length lo' = j) by lia. clear Llo.
    destruct (last_three (x :: hi) (length v)) as (wr & uj2 & uj1 & uj & Ew & Lwr); [cbn; lia|lia|].
    assert (Dw : digs (wr ++ [uj2; uj1; uj])) by (rewrite <- Ew; apply dig_cons; auto).
    pose proof Dw as Dw0. apply digs_app in Dw as [Dwr Du]. apply digs_inv in Du as [Hd0 Du].
    apply digs_inv in Du as [Hd1 Du]. apply digs_inv in Du as [Hd2 _].
    cbn [divide_normalized]. rewrite N1, N2.
    assert (Esk : skipn j ((lo' ++ [x]) ++ hi ++ zs) = (wr ++ [uj2; uj1]) ++ uj :: zs).
    { rewrite <- app_assoc. rewrite skipn_app, <- Llo', skipn_all, Nat.sub_diag. cbn [skipn app].
      change (x :: hi ++ zs) with ((x :: hi) ++ zs). rewrite Ew, <- !app_assoc. reflexivity. }
    assert (Efi : firstn j ((lo' ++ [x]) ++ hi ++ zs) = lo').
    { rewrite <- app_assoc. rewrite firstn_app, <- Llo', firstn_all, Nat.sub_diag. cbn [firstn]. apply app_nil_r. }
    rewrite Esk, Efi.
    assert (L1 : length (wr ++ [uj2; uj1]) = length v) by (rewrite app_length; cbn; lia).
    assert (M0 : nth_error ((wr ++ [uj2; uj1]) ++ uj :: zs) (length v) = Some uj).
    { rewrite nth_error_app2 by lia. rewrite L1, Nat.sub_diag. reflexivity. }
    assert (M1 : nth_error ((wr ++ [uj2; uj1]) ++ uj :: zs) (length v - 1) = Some uj1).
    { rewrite nth_error_app1 by lia. rewrite nth_error_app2 by lia.
      replace (length v - 1 - length wr)%nat with 1%nat by lia. reflexivity. }
    assert (M2 : nth_error ((wr ++ [uj2; uj1]) ++ uj :: zs) (length v - 2) = Some uj2).
    { rewrite nth_error_app1 by lia. rewrite nth_error_app2 by lia.
      replace (length v - 2 - length wr)%nat with 0%nat by lia. reflexivity. }
    rewrite M0, M1, M2. clear M0 M1 M2.
    assert (Lwr' : length wr = length vr) by lia.
    pose proof (val_range wr Dwr) as RW. rewrite Lwr' in RW.
    assert (EW : val (x :: hi) = ((uj * 1073741824 + uj1) * 1073741824 + uj2) * bp (length vr) + val wr).
    { rewrite Ew, val3, Lwr'. reflexivity. }
    cbn [val] in EW. rewrite radix_eq in EW.
    pose proof Hd as Hdx. unfold dig in Hdx. rewrite radix_eq in Hdx.
    assert (HWV : x + 1073741824 * val hi < 1073741824 * val v) by lia.
    pose proof Hd0 as D0. pose proof Hd1 as D1. pose proof Hd2 as D2.
    unfold dig in D0, D1, D2. rewrite radix_eq in D0, D1, D2.
    assert (Huj : uj <= v1).
    { destruct (Z.le_gt_cases uj v1) as [|G]; auto. exfalso.
      unfold dig in Hv2. rewrite radix_eq in Hv2.
      rewrite EW, VV in HWV.
      set (K := bp (length vr)) in *. clearbody K.
      assert ((v1 + 1) * 1073741824 * 1073741824 <= uj * 1073741824 * 1073741824) by lia.
      nia. }
    destruct (first_guess_spec uj uj1 uj2 v1 v2 (bp (length vr)) (val vr) (val wr)) as
      (g & ch & Eg & Dg & Hch & Hgc & Hq & H3 & HF); auto; try lia.
    rewrite Eg.
    destruct (guess_loop_spec 4 v1 v2 (hd_high v2) (hd_low v2) g ch uj2 (bp (length vr)) (val vr) (val wr)) as (g' & Eg' & Hg' & Dg');
      auto; try lia.
    { rewrite hd_high_eq, hd_low_eq. apply Z.div_mod; lia. }
    { rewrite hd_low_eq. apply Z.mod_pos_bound; lia. }
    { rewrite Hgc. exact Hq. }
    rewrite Eg'. rewrite Hgc, <- EW, <- VV in Hg'. clear Eg Eg' Hq H3 HF Hgc Hch.
    assert (EW2 : val (wr ++ [uj2; uj1]) + bp (length v) * uj = x + 1073741824 * val hi).
    { rewrite val2, EW, Lv, Lwr'. rewrite !bp_add. change (bp 2) with (1073741824 * 1073741824). ring. }
    destruct (divide_subtract_spec v g' (wr ++ [uj2; uj1]) uj zs) as (w1' & Ed & Dw1 & Lw1 & Vw1); auto.
    { replace (wr ++ [uj2; uj1; uj]) with ((wr ++ [uj2; uj1]) ++ [uj]) in Dw0 by (rewrite <- app_assoc; reflexivity).
      apply digs_app in Dw0 as [A _]. exact A. }
    { pose proof (val_range hi Hhi). lia. }
    { rewrite EW2. exact Hg'. }
    { rewrite EW2, radix_eq. exact HWV. }
    rewrite Ed. rewrite EW2 in *. clear Ed.
    pose proof (val_range hi Hhi) as RH.
    assert (HVp : 0 < val v) by lia.
    pose proof (Z.div_mod (x + 1073741824 * val hi) (val v) ltac:(lia)) as DM.
    pose proof (Z.mod_pos_bound (x + 1073741824 * val hi) (val v) HVp) as MB.
    destruct (IH lo' w1' (0 :: zs)) as (r & q & E & Dr & Dq & Lq & Lr & Vr & Br); auto; [lia|].
    rewrite E. exists r, (q ++ [(x + 1073741824 * val hi) / val v]).
    assert (Qb : 0 <= (x + 1073741824 * val hi) / val v < 1073741824).
    { split; [apply Z.div_pos; lia|apply Z.div_lt_upper_bound; lia]. }
    sp; auto.
    + assert (R : repeat 0 j ++ 0 :: zs = repeat 0 (S j) ++ zs).
      { change (repeat 0 (S j)) with (0 :: repeat 0 j). rewrite repeat_cons, <- app_assoc. reflexivity. }
      rewrite R. reflexivity.
    + apply digs_app. split; auto. apply dig_cons; [unfold dig; rewrite radix_eq; lia|constructor].
    + rewrite app_length; cbn; lia.
    + rewrite !val_app. cbn [val]. rewrite Lq, Llo'. rewrite bp_S, radix_eq.
      set (Q := (x + 1073741824 * val hi) / val v) in *. clearbody Q.
      rewrite Vw1 in Vr. set (M := (x + 1073741824 * val hi) mod val v) in *. clearbody M.
      replace ((val q + bp j * (Q + 1073741824 * 0)) * val v + val r)
        with ((val q * val v + val r) + bp j * (val v * Q)) by ring. rewrite <- Vr.
      replace (val v * Q) with (x + 1073741824 * val hi - M) by lia. ring.
    + lia.
    + lia.
Qed.

(** ** Divisors of several digits *)

Lemma val_repeat_app r k : val (r ++ repeat 0 k) = val r.
Proof. rewrite val_app, val_repeat. lia. Qed.
Lemma digs_repeat0 k : digs (repeat 0 k).
Proof. induction k; cbn; [constructor|apply dig_cons; auto]. unfold dig; rewrite radix_eq; lia. Qed.
(** The precondition of the digit loop: the leading digits are below the divisor. *)
Lemma top_below hi0 c vr v2 v1 : digs hi0 -> length hi0 = (1 + length vr)%nat ->
  digs (vr ++ [v2; v1]) -> 0 <= c < v1 -> val (hi0 ++ [c]) < val (vr ++ [v2; v1]).
Proof.
  intros Hh HL Hv Hc. rewrite val_app. cbn [val]. rewrite val2. pose proof (val_range hi0 Hh) as R.
  apply digs_app in Hv as [Hr Hv]. apply digs_inv in Hv as [H2 _]. unfold dig in H2. rewrite radix_eq in H2.
  rewrite HL in *. change (1 + length vr)%nat with (S (length vr)) in *. rewrite bp_S, radix_eq in *.
  pose proof (val_range vr Hr). pose proof (bp_pos (length vr)). nia.
Qed.

Lemma divide_large_spec n d qn rn : digs n -> digs d -> topnz d -> (2 <= length d <= length n)%nat ->
  div_ok n d qn rn (divide_large n d qn rn).
Proof.
  intros Hn Hd Td HL. unfold divide_large.
  destruct (Nat.leb_spec (length d) 1); [lia|].
  destruct (exists_last (l := d)) as (d0 & top & Ed). { intros ->; cbn in HL; lia. }
  assert (Ltop : nth_error d (length d - 1) = Some top).
  { rewrite Ed, app_length; cbn. rewrite nth_error_app2 by lia.
    replace (length d0 + 1 - 1 - length d0)%nat with 0%nat by lia. reflexivity. }
  rewrite Ltop.
  assert (Htop : 0 < top < 1073741824).
  { destruct Td as [->|Td]; [cbn in HL; lia|]. rewrite Ed, last_last in Td. rewrite Ed in Hd.
    apply digs_app in Hd as [_ Hd]. apply digs_inv in Hd as [Hd _]. unfold dig in Hd. rewrite radix_eq in Hd. lia. }
  destruct (norm_shift_top top Htop) as (k & Hk & E & HK). rewrite E. cbn [fst snd].
  assert (HVd : 0 < val d) by (apply topnz_pos; auto; intros ->; cbn in HL; lia).
  destruct (Z.eqb_spec k 0) as [->|Hk0].
  - rewrite Z.mul_1_r in HK.
    destruct (exists_last (l := d0)) as (vr & v2 & Ed0). { intros ->. rewrite Ed in HL. cbn in HL; lia. }
    assert (Ev : d = vr ++ [v2; top]) by (rewrite Ed, Ed0, <- app_assoc; reflexivity).
    set (j := (length n + 1 - length d)%nat).
    assert (Es : n ++ [0] = firstn j n ++ (skipn j n ++ [0]) ++ []).
    { rewrite app_nil_r, app_assoc, firstn_skipn. reflexivity. }
    assert (Dn : digs (firstn j n) /\ digs (skipn j n)) by (apply digs_app; rewrite firstn_skipn; auto).
    destruct Dn as [Df Ds].
    assert (Dz : dig 0) by (unfold dig; rewrite radix_eq; lia).
    destruct (divide_normalized_spec d vr v2 top Ev Hd ltac:(lia) j (firstn j n) (skipn j n ++ [0]) [])
      as (r & q & EE & Dr & Dq & Lq & Lr & Vr & Br); auto.
    { apply digs_app; split; auto. apply dig_cons; [auto|constructor]. }
    { rewrite firstn_length. unfold j. lia. }
    { rewrite app_length, skipn_length. cbn. unfold j. lia. }
    { rewrite Ev. apply top_below; auto; try lia.
      - rewrite skipn_length. unfold j. rewrite Ev in *. rewrite app_length in *. cbn in *. lia.
      - rewrite <- Ev; auto. }
    rewrite Es, EE. rewrite app_nil_r.
    destruct (trim_spec qn q Dq) as [N V]. { intros ->. cbn in Lq. unfold j in Lq. lia. }
    destruct (trim_spec rn (r ++ repeat 0 j)) as [N' V'].
    { apply digs_app; split; auto. apply digs_repeat0. }
    { intros EN. destruct r; [cbn in Lr; lia|discriminate]. }
    rewrite val_repeat_app in V'.
    do 2 eexists. split; [reflexivity|]. split; [exact N|]. split; [exact N'|].
    exists (val q), (val r). split; [exact V|]. split; [exact V'|]. split; [exact Br|].
    split; [|apply val_range in Dq; lia].
    rewrite <- Vr. rewrite <- (firstn_skipn j n) at 1. rewrite !val_app. cbn [val].
    rewrite firstn_length. rewrite Nat.min_l by (unfold j; lia). lia.
  - assert (Hk' : 0 < k < 30) by lia.
    destruct (normalization_room n k Hk' Hn) as (u & E1 & Du & Lu & Vu & Tu). rewrite E1.
    assert (Pk : 0 < 2 ^ k) by (apply Z.pow_pos_nonneg; lia).
    destruct (normalization_fit d k Hk' Hd) as (v & E2 & Dv & Lv & Vv).
    { assert (Dd0 : digs d0) by (rewrite Ed in Hd; apply digs_app in Hd; tauto).
      pose proof (val_range d0 Dd0). rewrite Ed, app_length, val_app. cbn [val length].
      replace (length d0 + 1)%nat with (S (length d0)) by lia. rewrite bp_S, radix_eq.
      pose proof (bp_pos (length d0)).
      assert (2 ^ k * val d0 < 2 ^ k * bp (length d0)) by nia.
      assert ((top + 1) * 2 ^ k <= 1073741824).
      { assert (B : (1073741824 = 2 ^ (30 - k) * 2 ^ k)) 
          by (rewrite <- Z.pow_add_r by lia; replace (30 - k + k) with 30 by lia; reflexivity).
        assert (top < 2 ^ (30 - k)) by nia. nia. }
      nia. }
    rewrite E2.
    assert (HVv : 0 < val v) by nia.
    destruct (exists_last (l := v)) as (v0 & v1 & Ev). { intros ->. cbn in Lv. lia. }
    destruct (exists_last (l := v0)) as (vr & v2 & Ev0). { intros ->. rewrite Ev in Lv. cbn in Lv; lia. }
    assert (Evv : v = vr ++ [v2; v1]) by (rewrite Ev, Ev0, <- app_assoc; reflexivity).
    assert (H1 : 536870912 <= v1).
    { (* the leading digit of the shifted divisor is the shifted leading digit, plus carry *)
      assert (Dd0 : digs d0) by (rewrite Ed in Hd; apply digs_app in Hd; tauto).
      assert (Dv0 : digs v0) by (rewrite Ev in Dv; apply digs_app in Dv; tauto).
      assert (L0 : length v0 = length d0) by (rewrite Ev, Ed, !app_length in Lv; cbn in Lv; lia).
      rewrite Ev, Ed, !val_app in Vv. cbn [val] in Vv. rewrite L0 in Vv.
      pose proof (val_range d0 Dd0). pose proof (val_range v0 Dv0). rewrite L0 in *.
      pose proof (bp_pos (length d0)) as PB. set (P := bp (length d0)) in *. clearbody P.
      destruct (Z.le_gt_cases 536870912 v1) as [|G]; auto. exfalso.
      assert (v1 + 1 <= top * 2 ^ k) by lia. 
      assert (P * (v1 + 1) <= P * (top * 2 ^ k)) by nia.
      assert (0 <= val d0 * 2 ^ k) by nia. lia. }
    destruct (exists_last (l := u)) as (u0 & c & Eu). { intros ->. cbn in Lu. lia. }
    assert (L0 : length u0 = length n) by (rewrite Eu, app_length in Lu; cbn in Lu; lia).
    rewrite Eu, last_last in Tu.
    assert (Du0 : digs u0 /\ digs [c]) by (apply digs_app; rewrite <- Eu; auto). destruct Du0 as [Du0 Dc].
    set (j := (length n + 1 - length d)%nat).
    assert (Es : u = firstn j u0 ++ (skipn j u0 ++ [c]) ++ []).
    { rewrite Eu, app_nil_r, app_assoc, firstn_skipn. reflexivity. }
    assert (Dn : digs (firstn j u0) /\ digs (skipn j u0)) by (apply digs_app; rewrite firstn_skipn; auto).
    destruct Dn as [Df Ds].
    destruct (divide_normalized_spec v vr v2 v1 Evv Dv H1 j (firstn j u0) (skipn j u0 ++ [c]) [])
      as (r & q & EE & Dr & Dq & Lq & Lr & Vr & Br); auto.
    { apply digs_app; split; auto. }
    { rewrite firstn_length. unfold j. lia. }
    { rewrite app_length, skipn_length. cbn. unfold j. lia. }
    { rewrite Evv. apply top_below; auto; try lia.
      - rewrite skipn_length. unfold j. rewrite Evv in Lv. rewrite app_length in Lv. cbn in Lv. lia.
      - rewrite <- Evv; auto.
      - assert (2 ^ k <= 2 ^ 29) by (apply Z.pow_le_mono_r; lia). change (2 ^ 29) with 536870912 in H0. lia. }
    rewrite <- Es in EE. rewrite EE. rewrite app_nil_r.
    assert (VN : val n * 2 ^ k = val q * (val d * 2 ^ k) + val r).
    { rewrite <- Vu, <- Vv, <- Vr. rewrite Es, app_nil_r, !val_app. cbn [val].
      rewrite firstn_length. rewrite Nat.min_l by (unfold j; lia). lia. }
    assert (EQr : val r = (val n - val q * val d) * 2 ^ k) by lia.
    destruct (unnormalization_spec (r ++ repeat 0 j) k (val n - val q * val d) Hk') as (r' & E3 & Dr' & Lr' & Vr').
    { apply digs_app; split; auto. apply digs_repeat0. }
    { rewrite val_repeat_app. exact EQr. }
    rewrite E3.
    destruct (trim_spec qn q Dq) as [N V]. { intros ->. cbn in Lq. unfold j in Lq. lia. }
    destruct (trim_spec rn r' Dr') as [N' V'].
    { intros ->. cbn in Lr'. rewrite app_length in Lr'. lia. }
    do 2 eexists. split; [reflexivity|]. split; [exact N|]. split; [exact N'|].
    exists (val q), (val r'). split; [exact V|]. split; [exact V'|]. rewrite Vr'.
    rewrite Vv in Br. pose proof (val_range q Dq).
    split; [|split; lia]. split; nia.
Qed.

(** ** The three entry points *)

Lemma quot_rem_of n d vn vd vq vr : 0 < vd -> 0 <= vr < vd -> vn = vq * vd + vr -> 0 <= vq ->
  Z.abs n = vn -> Z.abs d = vd ->
  Z.quot n d = (if xorb (n <? 0) (d <? 0) then - vq else vq) /\ Z.rem n d = (if n <? 0 then - vr else vr).
Proof.
  intros Hd Hr Hn Hq An Ad.
  assert (Q : Z.quot (Z.abs n) (Z.abs d) = vq /\ Z.rem (Z.abs n) (Z.abs d) = vr).
  { rewrite An, Ad. split.
    - symmetry. apply Z.quot_unique with vr; lia.
    - symmetry. apply Z.rem_unique with vq; lia. }
  destruct Q as [Q R].
  destruct (Z.ltb_spec n 0), (Z.ltb_spec d 0); cbn [xorb].
  - replace n with (- Z.abs n) by lia. replace d with (- Z.abs d) by lia.
    rewrite Z.quot_opp_opp, Z.rem_opp_opp by lia. lia.
  - replace n with (- Z.abs n) by lia. replace d with (Z.abs d) by lia.
    rewrite Z.quot_opp_l, Z.rem_opp_l by lia. lia.
  - replace n with (Z.abs n) by lia. replace d with (- Z.abs d) by lia.
    rewrite Z.quot_opp_r, Z.rem_opp_r by lia. lia.
  - replace n with (Z.abs n) by lia. replace d with (Z.abs d) by lia. lia.
Qed.
Lemma bneg_ltb x : norm x -> bneg x = (bval x <? 0).
Proof.
  intros N. destruct (bzero_p x) eqn:Z.
  - rewrite (bval_zero x Z). destruct N as (_ & _ & N). rewrite N by (apply bzero_p_spec; auto). reflexivity.
  - pose proof (bval_nonzero x N Z). destruct (bneg x), (Z.ltb_spec (bval x) 0); auto; lia.
Qed.
Lemma bval_abs x : norm x -> Z.abs (bval x) = val (bdig x).
Proof. intros (D & _). pose proof (val_range _ D). unfold bval. destruct (bneg x); lia. Qed.
Lemma make_one_spec n : norm (make_one n) /\ bval (make_one n) = if n then -1 else 1.
Proof.
  split.
  - unfold norm, make_one; cbn. sp; try discriminate; [|right; cbn; lia].
    apply dig_cons; [unfold dig; rewrite radix_eq; lia|constructor].
  - destruct n; reflexivity.
Qed.
Lemma bval_sign n ds : bval (BI n ds) = if n then - val ds else val ds.
Proof. apply bval_neg. Qed.
(** The cases of the divisor common to the three entry points. *)
Lemma div_gt_spec n d qn rn : norm n -> norm d -> bzero_p d = false -> val (bdig d) < val (bdig n) ->
  match bdig d with
  | [digit] => (digit = 1) \/ (1 < digit < radix_root /\ div_ok (bdig n) (bdig d) qn rn (divide_small (bdig n) digit qn rn))
      \/ (radix_root <= digit /\ div_ok (bdig n) (bdig d) qn rn (divide_medium (bdig n) digit qn rn))
  | _ => div_ok (bdig n) (bdig d) qn rn (divide_large (bdig n) (bdig d) qn rn)
  end.
Proof.
  intros (Dn & Tn & _) (Dd & Td & _) Zd Lt. apply bzero_p_false in Zd.
  assert (Nn : bdig n <> []).
  { intros E. rewrite E in Lt. pose proof (val_range _ Dd). cbn in Lt. lia. }
  destruct (bdig d) as [|x [|y t]] eqn:E; [congruence| |].
  - apply digs_inv in Dd as [Dx _]. unfold dig in Dx. 
    assert (x <> 0). { destruct Td as [|Td]; [discriminate|]. cbn in Td. auto. }
    change radix_root with 32768.
    assert (x = 1 \/ 1 < x < 32768 \/ 32768 <= x) as [C|[C|C]] by lia; [left; auto|right; left|right; right].
    + split; auto. apply divide_small_spec; auto.
    + split; auto. apply divide_medium_spec; auto. lia.
  - apply divide_large_spec; auto. split; [cbn; lia|].
    destruct (Nat.le_gt_cases (length (x :: y :: t)) (length (bdig n))) as [|G]; auto.
    pose proof (longer_gt _ _ Dd Dn Td G). lia.
Qed.
Lemma div_ok_bigint n d q r : norm n -> norm d -> bzero_p d = false ->
  div_ok (bdig n) (bdig d) (if bneg d then negb (bneg n) else bneg n) (bneg n) (Some (q, r)) ->
  norm q /\ norm r /\ bval q = Z.quot (bval n) (bval d) /\ bval r = Z.rem (bval n) (bval d).
Proof.
  intros Nn Nd Zd (q' & r' & E & N1 & N2 & vq & vr & V1 & V2 & Hr & Hn & Hq). injection E as <- <-.
  assert (HV : 0 < val (bdig d)) by (destruct Nd as (A & B & _); apply topnz_pos; auto; apply bzero_p_false; auto).
  destruct (quot_rem_of (bval n) (bval d) _ _ vq vr HV Hr Hn Hq (bval_abs n Nn) (bval_abs d Nd)) as [Q R].
  rewrite Q, R, <- !bneg_ltb by auto. rewrite V1, V2.
  split; [exact N1|]. split; [exact N2|]. split; [|reflexivity].
  destruct (bneg n), (bneg d); reflexivity.
Qed.

Theorem bigint_divide_spec n d : norm n -> norm d ->
  if bzero_p d then bigint_divide n d = Some None else
  exists q r, bigint_divide n d = Some (Some (q, r)) /\ norm q /\ norm r
    /\ bval q = Z.quot (bval n) (bval d) /\ bval r = Z.rem (bval n) (bval d).
Proof.
  intros Nn Nd. unfold bigint_divide, bcopy. destruct (bzero_p d) eqn:Zd; [reflexivity|].
  destruct (bzero_p n) eqn:Zn.
  { exists n, n. rewrite (bval_zero n Zn), Z.quot_0_l, Z.rem_0_l; auto;
    pose proof (bval_nonzero d Nd Zd); destruct (bneg d); lia. }
  set (qn := if bneg d then negb (bneg n) else bneg n).
  assert (G : exists q r, divide_cases n d qn (bneg n) = Some (q, r)
             /\ div_ok (bdig n) (bdig d) qn (bneg n) (Some (q, r))).
  { unfold divide_cases. pose proof Nn as (Dn & Tn & Sn). pose proof Nd as (Dd & Td & Sd).
    rewrite compare_unsigned_spec by auto.
    pose proof (val_range _ Dn) as RN. pose proof (val_range _ Dd) as RD.
    assert (HV : 0 < val (bdig d)) by (apply topnz_pos; auto; apply bzero_p_false; auto).
    destruct (Z.compare_spec (val (bdig n)) (val (bdig d))) as [C|C|C].
    - do 2 eexists. split; [reflexivity|]. do 2 eexists. split; [reflexivity|].
      destruct (make_one_spec qn) as [A B]. split; [exact A|]. split; [apply norm_zero|].
      exists 1, 0. rewrite B. sp; auto; try lia. destruct (bneg n); reflexivity.
    - do 2 eexists. split; [reflexivity|]. do 2 eexists. split; [reflexivity|].
      split; [apply norm_zero|]. split; [exact Nn|].
      exists 0, (val (bdig n)). unfold bcopy. sp; try lia; [destruct qn; reflexivity|].
      destruct n as [sg dg]; cbn [bneg bdig]. apply bval_neg.
    - pose proof (div_gt_spec n d qn (bneg n) Nn Nd Zd C) as G.
      destruct (bdig d) as [|x [|y t]] eqn:E; [apply bzero_p_false in Zd; congruence| |].
      + destruct G as [->|[[L G]|[L G]]].
        * cbn [Z.eqb]. do 2 eexists. split; [reflexivity|]. do 2 eexists. split; [reflexivity|].
          split; [apply norm_sign; auto|].
          split; [apply norm_zero|]. exists (val (bdig n)), 0.
          sp; cbn [val]; try lia; [|destruct (bneg n); reflexivity].
          unfold maybe_new_sign. apply bval_neg.
        * destruct (Z.eqb_spec x 1); [lia|]. destruct (Z.ltb_spec x radix_root); [|lia].
          destruct G as (q & r & EG & G). rewrite EG. exists q, r. split; auto. exists q, r; auto.
        * change radix_root with 32768 in *.
          destruct (Z.eqb_spec x 1); [lia|]. destruct (Z.ltb_spec x 32768); [lia|].
          destruct G as (q & r & EG & G). rewrite EG. exists q, r. split; auto. exists q, r; auto.
      + destruct G as (q & r & EG & G). rewrite EG. exists q, r. split; auto. exists q, r; auto. }
  destruct G as (q & r & EG & G). rewrite EG. exists q, r. split; [reflexivity|].
  apply div_ok_bigint; auto.
Qed.

Lemma quotient_sign n d q : norm n -> norm d -> bzero_p d = false -> norm q ->
  (exists vq vr, bval q = (if (if bneg d then negb (bneg n) else bneg n) then - vq else vq)
    /\ 0 <= vr < val (bdig d) /\ val (bdig n) = vq * val (bdig d) + vr /\ 0 <= vq) ->
  bval q = Z.quot (bval n) (bval d).
Proof.
  intros Nn Nd Zd Nq (vq & vr & V1 & Hr & Hn & Hq).
  assert (HV : 0 < val (bdig d)) by (destruct Nd as (A & B & _); apply topnz_pos; auto; apply bzero_p_false; auto).
  destruct (quot_rem_of (bval n) (bval d) _ _ vq vr HV Hr Hn Hq (bval_abs n Nn) (bval_abs d Nd)) as [Q R].
  rewrite Q, <- !bneg_ltb by auto. rewrite V1. destruct (bneg n), (bneg d); reflexivity.
Qed.
Lemma remainder_sign n d r : norm n -> norm d -> bzero_p d = false -> norm r ->
  (exists vq vr, bval r = (if bneg n then - vr else vr)
    /\ 0 <= vr < val (bdig d) /\ val (bdig n) = vq * val (bdig d) + vr /\ 0 <= vq) ->
  bval r = Z.rem (bval n) (bval d).
Proof.
  intros Nn Nd Zd Nr (vq & vr & V1 & Hr & Hn & Hq).
  assert (HV : 0 < val (bdig d)) by (destruct Nd as (A & B & _); apply topnz_pos; auto; apply bzero_p_false; auto).
  destruct (quot_rem_of (bval n) (bval d) _ _ vq vr HV Hr Hn Hq (bval_abs n Nn) (bval_abs d Nd)) as [Q R].
  rewrite R, <- bneg_ltb by auto. exact V1.
Qed.

Theorem bigint_quotient_spec n d : norm n -> norm d ->
  if bzero_p d then bigint_quotient n d = Some None else
  exists q, bigint_quotient n d = Some (Some q) /\ norm q /\ bval q = Z.quot (bval n) (bval d).
Proof.
  intros Nn Nd. unfold bigint_quotient, bcopy. destruct (bzero_p d) eqn:Zd; [reflexivity|].
  destruct (bzero_p n) eqn:Zn.
  { exists n. rewrite (bval_zero n Zn), Z.quot_0_l; auto;
    pose proof (bval_nonzero d Nd Zd); destruct (bneg d); lia. }
  set (qn := if bneg d then negb (bneg n) else bneg n).
  assert (G : forall q, norm q ->
    (exists vq vr, bval q = (if qn then - vq else vq)
      /\ 0 <= vr < val (bdig d) /\ val (bdig n) = vq * val (bdig d) + vr /\ 0 <= vq) ->
    exists q', Some (Some q) = Some (Some q') /\ norm q' /\ bval q' = Z.quot (bval n) (bval d)).
  { intros q Nq H. exists q. split; [reflexivity|]. split; [exact Nq|]. apply quotient_sign; auto. }
  pose proof Nn as (Dn & Tn & Sn). pose proof Nd as (Dd & Td & Sd).
  rewrite compare_unsigned_spec by auto.
  pose proof (val_range _ Dn) as RN. pose proof (val_range _ Dd) as RD.
  assert (HV : 0 < val (bdig d)) by (apply topnz_pos; auto; apply bzero_p_false; auto).
  destruct (Z.compare_spec (val (bdig n)) (val (bdig d))) as [C|C|C].
  - destruct (make_one_spec qn) as [A B]. apply G; auto. exists 1, 0. rewrite B. sp; auto; lia.
  - apply G; [apply norm_zero|]. exists 0, (val (bdig n)). sp; try lia; destruct qn; reflexivity.
  - pose proof (div_gt_spec n d qn false Nn Nd Zd C) as DG.
    destruct (bdig d) as [|x [|y t]] eqn:E; [apply bzero_p_false in Zd; congruence| |].
    + change radix_root with 32768 in *. destruct DG as [->|[[L DG]|[L DG]]].
      * cbn [Z.eqb]. apply G; [apply norm_sign; auto|]. exists (val (bdig n)), 0.
        unfold maybe_new_sign. rewrite bval_neg. sp; cbn [val]; auto; lia.
      * destruct (Z.eqb_spec x 1); [lia|]. destruct (Z.ltb_spec x 32768); [|lia].
        destruct DG as (q & r & EG & N1 & N2 & vq & vr & V1 & V2 & H1 & H2 & H3). rewrite EG.
        apply G; auto. exists vq, vr; auto.
      * destruct (Z.eqb_spec x 1); [lia|]. destruct (Z.ltb_spec x 32768); [lia|].
        destruct DG as (q & r & EG & N1 & N2 & vq & vr & V1 & V2 & H1 & H2 & H3). rewrite EG.
        apply G; auto. exists vq, vr; auto.
    + destruct DG as (q & r & EG & N1 & N2 & vq & vr & V1 & V2 & H1 & H2 & H3). rewrite EG.
      apply G; auto. exists vq, vr; auto.
Qed.

Theorem bigint_remainder_spec n d : norm n -> norm d ->
  if bzero_p d then bigint_remainder n d = Some None else
  exists r, bigint_remainder n d = Some (Some r) /\ norm r /\ bval r = Z.rem (bval n) (bval d).
Proof.
  intros Nn Nd. unfold bigint_remainder, bcopy. destruct (bzero_p d) eqn:Zd; [reflexivity|].
  destruct (bzero_p n) eqn:Zn.
  { exists n. rewrite (bval_zero n Zn), Z.rem_0_l; auto;
    pose proof (bval_nonzero d Nd Zd); destruct (bneg d); lia. }
  assert (G : forall r, norm r ->
    (exists vq vr, bval r = (if bneg n then - vr else vr)
      /\ 0 <= vr < val (bdig d) /\ val (bdig n) = vq * val (bdig d) + vr /\ 0 <= vq) ->
    exists r', Some (Some r) = Some (Some r') /\ norm r' /\ bval r' = Z.rem (bval n) (bval d)).
  { intros r Nr H. exists r. split; [reflexivity|]. split; [exact Nr|]. apply remainder_sign; auto. }
  pose proof Nn as (Dn & Tn & Sn). pose proof Nd as (Dd & Td & Sd).
  rewrite compare_unsigned_spec by auto.
  pose proof (val_range _ Dn) as RN. pose proof (val_range _ Dd) as RD.
  assert (HV : 0 < val (bdig d)) by (apply topnz_pos; auto; apply bzero_p_false; auto).
  destruct (Z.compare_spec (val (bdig n)) (val (bdig d))) as [C|C|C].
  - apply G; [apply norm_zero|]. exists 1, 0. sp; try lia. destruct (bneg n); reflexivity.
  - apply G; auto. exists 0, (val (bdig n)). sp; try lia. destruct n; apply bval_neg.
  - pose proof (div_gt_spec n d false (bneg n) Nn Nd Zd C) as DG.
    destruct (bdig d) as [|x [|y t]] eqn:E; [apply bzero_p_false in Zd; congruence| |].
    + change radix_root with 32768 in *. destruct DG as [->|[[L DG]|[L DG]]].
      * cbn [Z.eqb]. apply G; [apply norm_zero|]. exists (val (bdig n)), 0.
        sp; cbn [val]; try lia. destruct (bneg n); reflexivity.
      * destruct (Z.eqb_spec x 1); [lia|]. destruct (Z.ltb_spec x 32768); [|lia].
        unfold remainder_small.
        destruct (remainder_small_loop_spec (bdig n) x Dn L) as (r & ER & Vr). rewrite ER.
        pose proof (Z.mod_pos_bound (val (bdig n)) x ltac:(lia)) as Hr. rewrite <- Vr in Hr.
        destruct (digit_to_bigint_spec r (bneg n)) as [N' V'].
        { unfold dig; rewrite radix_eq; lia. }
        replace ((1 <? x) && (x <? radix_root))%bool with true
          by (change radix_root with 32768; symmetry; apply andb_true_intro; split; apply Z.ltb_lt; lia).
        apply G; auto. exists (val (bdig n) / x), r. cbn [val].
        pose proof (Z.div_mod (val (bdig n)) x ltac:(lia)).
        assert (0 <= val (bdig n) / x) by (apply Z.div_pos; lia).
        sp; auto; try lia.
      * destruct (Z.eqb_spec x 1); [lia|]. destruct (Z.ltb_spec x 32768); [lia|].
        destruct DG as (q & r & EG & N1 & N2 & vq & vr & V1 & V2 & H1 & H2 & H3). rewrite EG.
        apply G; auto. exists vq, vr; auto.
    + destruct DG as (q & r & EG & N1 & N2 & vq & vr & V1 & V2 & H1 & H2 & H3). rewrite EG.
      apply G; auto. exists vq, vr; auto.
Qed.

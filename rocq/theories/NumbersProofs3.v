(** * Proofs about the arithmetic primitives. *)

From Coq Require Import ZArith List Bool Lia QArith Qfield Qround Qabs.
From Verif Require Import SortModel BigintModel BigintProofs BigintProofs3 BigintProofs4 NumbersModel NumbersProofs NumbersProofs2.
Import ListNotations.
Open Scope Z_scope.

(** ** Integer division *)

Lemma quotient_prim_spec x y : iok x -> iok y -> ival y <> 0 ->
  exists i, quotient_prim x y = Some (Val i) /\ icanon i /\ ival i = Z.quot (ival x) (ival y).
Proof.
  intros Hx Hy N. destruct (iquotient_spec x y Hx Hy N) as (i & E & C & V). exists i.
  unfold quotient_prim. destruct x as [ix|bx], y as [iy|b_y]; try (rewrite E; auto).
  cbn [iquotient ival] in *. destruct (Z.eqb_spec iy 0); [congruence|]. rewrite E. auto.
Qed.
Lemma remainder_prim_spec x y : iok x -> iok y -> ival y <> 0 ->
  exists i, remainder_prim x y = Some (Val i) /\ icanon i /\ ival i = Z.rem (ival x) (ival y).
Proof.
  intros Hx Hy N. destruct (iremainder_spec x y Hx Hy N) as (i & E & C & V). exists i.
  unfold remainder_prim. destruct x as [ix|bx], y as [iy|b_y]; try (rewrite E; auto).
  cbn [iremainder ival] in *. destruct (Z.eqb_spec iy 0); [congruence|]. rewrite E. auto.
Qed.
Lemma numcompare_int x y : iok x -> iok y -> numcompare (RI x) (RI y) = Some (csign (ival x ?= ival y)).
Proof.
  intros Hx Hy. rewrite numcompare_spec by (auto; cbn; auto). cbn [rq].
  unfold Qcompare, inject_Z. cbn [Qnum Qden]. rewrite !Z.mul_1_r. reflexivity.
Qed.
Lemma fix0_ok : iok (Fix 0).
Proof. cbn. fx. lia. Qed.
Lemma fix1_ok : iok (Fix 1).
Proof. cbn. fx. lia. Qed.
Lemma mod_same x b : b <> 0 -> (0 < x /\ 0 < b) \/ (x < 0 /\ b < 0) -> Z.rem x b = x mod b.
Proof.
  intros N [[A B]|[A B]].
  - apply Z.rem_mod_nonneg; lia.
  - replace x with (- - x) by lia. replace b with (- - b) by lia.
    rewrite Z.rem_opp_opp by lia. rewrite Z.rem_mod_nonneg by lia.
    rewrite (Zmod_opp_opp (- x)). reflexivity.
Qed.
Lemma mod_diff x b : b <> 0 -> (0 < x /\ b < 0) \/ (x < 0 /\ 0 < b) ->
  x mod b = if Z.rem x b =? 0 then 0 else b + Z.rem x b.
Proof.
  intros N H. pose proof (Z.quot_rem x b N) as Q. pose proof (Z.rem_bound_abs x b N) as B.
  pose proof (Z.rem_sign_mul x b N) as S.
  destruct (Z.eqb_spec (Z.rem x b) 0) as [E|E].
  - rewrite E, Z.add_0_r in Q. rewrite Q at 1. rewrite Z.mul_comm. apply Z.mod_mul. auto.
  - destruct H as [[A1 A2]|[A1 A2]].
    + symmetry. apply (Z.mod_unique_neg x b (Z.quot x b - 1)); [nia|lia].
    + symmetry. apply (Z.mod_unique_pos x b (Z.quot x b - 1)); [nia|lia].
Qed.
Lemma iplus_big bb r : norm bb -> iok r -> r <> Fix 0 -> exists i, iplus (Big bb) r = Some i /\ icanon i.
Proof.
  intros Nb Or Nr. destruct (tobigint_spec r Or) as (br & Er & Nbr & Vr).
  destruct (bigint_add_spec bb br Nb Nbr) as (q & Eq & Nq & Vq).
  destruct (simplify_spec q Nq) as (i & Ei & C & V). exists i. split; [|exact C].
  unfold iplus. destruct r as [[|p|p]|b']; try congruence;
    cbn [tobigint] in *; [rewrite Er|rewrite Er|injection Er as ->]; rewrite Eq; exact Ei.
Qed.
Lemma modulo_prim_spec x b : inear x -> inear b -> ival b <> 0 ->
  exists i, modulo_prim x b = Some (Val i) /\ icanon i /\ ival i = ival x mod ival b.
Proof.
  intros Ix Ib N. pose proof (inear_ok x Ix) as Hx. pose proof (inear_ok b Ib) as Hb.
  destruct (iremainder_spec x b Hx Hb N) as (r & E & Cr & Vr).
  assert (Bm : Z.abs (ival x mod ival b) < Z.abs (ival b)) by (apply Z.mod_bound_abs; auto).
  assert (C0 : icanon (Fix 0)) by (cbn; fx; lia).
  assert (G : exists i,
    (do xsign <- numcompare (RI x) (RI (Fix 0));
     do bsign <- numcompare (RI b) (RI (Fix 0));
     if xsign =? 0 then Some (Val (Fix 0))
     else if bsign =? 0 then Some Err
     else if ((0 <? xsign) && (0 <? bsign)) || ((xsign <? 0) && (bsign <? 0))
     then do r <- iremainder x b; Some (Val r)
     else
       do rem <- iremainder x b;
       match rem with
       | Fix 0 => Some (Val rem)
       | _ => do r <- iplus b rem; Some (Val r)
       end) = Some (Val i) /\ icanon i /\ ival i = ival x mod ival b).
  { rewrite !numcompare_int by (auto; apply fix0_ok). cbn [ival]. rewrite E.
    assert (SAME : (0 < ival x /\ 0 < ival b) \/ (ival x < 0 /\ ival b < 0) ->
      exists i, Some (Val r) = Some (Val i) /\ icanon i /\ ival i = ival x mod ival b).
    { intros S. exists r. split; [auto|]. split; [auto|]. rewrite Vr. apply mod_same; auto. }
    assert (DIFF : (0 < ival x /\ ival b < 0) \/ (ival x < 0 /\ 0 < ival b) ->
      exists i, (match r with Fix 0 => Some (Val r) | _ => do r0 <- iplus b r; Some (Val r0) end) = Some (Val i)
        /\ icanon i /\ ival i = ival x mod ival b).
    { intros S. rewrite mod_diff by auto. rewrite <- Vr.
      destruct (iplus_spec b r Hb (icanon_ok r Cr)) as (s & Es & Os & Vs & Cs).
      assert (P : ival r <> 0 -> exists i, (do r0 <- iplus b r; Some (Val r0)) = Some (Val i)
        /\ icanon i /\ ival i = (if ival r =? 0 then 0 else ival b + ival r)).
      { intros Nr. rewrite Es. exists s. split; [auto|]. split; [|destruct (Z.eqb_spec (ival r) 0); [congruence|]; exact Vs].
        destruct b as [ib|bb].
        - apply inear_canon; [apply Cs; split; auto; apply icanon_near; auto|].
          rewrite mod_diff in Bm by auto. rewrite <- Vr in Bm. destruct (Z.eqb_spec (ival r) 0); [congruence|].
          rewrite <- Vs in Bm. cbn [iok ival] in *. unfold edge. fx. lia.
        - destruct (iplus_big bb r Hb (icanon_ok r Cr)) as (s' & Es' & Cs'); [intros ->; apply Nr; reflexivity|].
          congruence. }
      destruct r as [[|p|p]|br]; cbn [ival] in *.
      - exists (Fix 0). split; [auto|]. split; [auto|]. reflexivity.
      - apply P. lia.
      - apply P. lia.
      - apply P. intros EZ. cbn in Cr. destruct Cr as [_ Cr]. apply Cr. rewrite EZ. fx. lia. }
    destruct (Z.compare_spec (ival x) 0) as [Z1|Z1|Z1]; cbn [csign Z.eqb].
    - destruct (ival b ?= 0); exists (Fix 0); split; auto; split; auto; rewrite Z1, Z.mod_0_l by auto; reflexivity.
    - destruct (Z.compare_spec (ival b) 0) as [Z2|Z2|Z2]; cbn [csign Z.eqb]; [congruence|..].
      + apply SAME. lia.
      + apply DIFF. lia.
    - destruct (Z.compare_spec (ival b) 0) as [Z2|Z2|Z2]; cbn [csign Z.eqb]; [congruence|..].
      + apply DIFF. lia.
      + apply SAME. lia. }
  unfold modulo_prim. destruct x as [ix|bx], b as [ib|bb]; try exact G.
  cbn [ival] in *. destruct (Z.eqb_spec ix 0) as [->|Nx].
  { exists (Fix 0). rewrite Z.mod_0_l by auto. auto. }
  destruct (Z.eqb_spec ib 0); [congruence|].
  assert (KI : exists i, kno_int (ix mod ib) = Some i /\ icanon i /\ ival i = ix mod ib).
  { apply kno_int_spec. cbn in Hb. fx. lia. }
  destruct KI as (i & EK & CK & VK).
  destruct (Z.ltb_spec 0 ix), (Z.ltb_spec 0 ib), (Z.ltb_spec ix 0), (Z.ltb_spec ib 0); cbn [andb orb]; try lia.
  - rewrite mod_same by lia. rewrite EK. exists i. auto.
  - exists i. pose proof (mod_diff ix ib N ltac:(lia)) as MD.
    destruct (Z.eqb_spec (Z.rem ix ib) 0) as [E0|E0]; [rewrite E0|]; rewrite <- MD, EK; auto.
  - exists i. pose proof (mod_diff ix ib N ltac:(lia)) as MD.
    destruct (Z.eqb_spec (Z.rem ix ib) 0) as [E0|E0]; [rewrite E0|]; rewrite <- MD, EK; auto.
  - rewrite mod_same by lia. rewrite EK. exists i. auto.
Qed.

(** ** Least common multiples *)

Lemma int_lcm_spec x y : iok x -> iok y -> ival x <> 0 \/ ival y <> 0 ->
  exists i, int_lcm x y = Some (Val (RI i)) /\ icanon i /\ ival i = Z.lcm (ival x) (ival y).
Proof.
  intros Hx Hy N. unfold int_lcm.
  destruct (imultiply_spec x y Hx Hy) as (p & -> & Op & Vp & _).
  destruct (int_gcd_spec x y Hx Hy) as (g & -> & Og & Vg & _).
  destruct (inorm_sign_spec p Op) as (p' & E & Op' & Vp' & _).
  unfold inorm_sign in E.
  assert (E' : match p with
     | Fix z => if z <? 0 then kno_int (- z) else Some p
     | Big _ => if isign p =? -1 then isubtract (Fix 0) p else Some p end = Some p').
  { destruct p; exact E. }
  rewrite E'. unfold rdivide.
  assert (Ng : 0 < ival g).
  { rewrite Vg. pose proof (Z.gcd_nonneg (ival x) (ival y)).
    destruct (Z.eq_dec (Z.gcd (ival x) (ival y)) 0) as [G|]; [|lia].
    apply Z.gcd_eq_0 in G. lia. }
  destruct (make_rational_spec p' g Op' Og ltac:(lia)) as (r & -> & Or & Q & C). specialize (C Ng).
  assert (D : ival p' = Z.lcm (ival x) (ival y) * ival g).
  { rewrite Vp', Vp, Vg. unfold Z.lcm. rewrite <- Z.abs_eq with (n := Z.gcd (ival x) (ival y)) at 2 by apply Z.gcd_nonneg.
    rewrite <- Z.abs_mul. f_equal. rewrite <- Z.mul_assoc. f_equal.
    destruct (Z.gcd_divide_r (ival x) (ival y)) as [k Hk]. rewrite Hk at 2. 
    rewrite Hk at 1. rewrite Z.div_mul by lia. reflexivity. }
  assert (QL : (rq r == inject_Z (Z.lcm (ival x) (ival y)))%Q).
  { rewrite Q, D. rewrite <- frac_1. apply frac_eq; lia. }
  destruct r as [i|n d].
  - exists i. split; [auto|]. split; [exact C|]. cbn [rq] in QL. unfold Qeq, inject_Z in QL. cbn in QL. lia.
  - exfalso. cbn [rcanon] in C. destruct C as (Cn & Cd & L & GG). cbn [rq] in QL.
    rewrite <- frac_1 in QL.
    assert (ival n = Z.lcm (ival x) (ival y) * ival d).
    { assert (X : (inject_Z (ival n) == inject_Z (Z.lcm (ival x) (ival y) * ival d))%Q).
      { rewrite inject_Z_mult. rewrite frac_1 in QL. rewrite <- QL. unfold frac. field. apply inj_nz. lia. }
      unfold Qeq, inject_Z in X. cbn in X. lia. }
    assert (Z.gcd (ival n) (ival d) = ival d).
    { rewrite H, Z.mul_comm, Z.gcd_comm. rewrite Z.gcd_mul_diag_l by lia. reflexivity. }
    lia.
Qed.

(** ** Rounding *)

Lemma frac_pos n d : 0 < d -> (frac n d == n # Z.to_pos d)%Q.
Proof.
  intros H. destruct d as [|p|p]; try lia. unfold frac, Qdiv, Qinv, inject_Z, Qeq, Qmult. cbn. lia.
Qed.
Lemma floor_frac n d : 0 < d -> Qfloor (frac n d) = n / d.
Proof. intros H. rewrite (frac_pos n d H). cbn [Qfloor]. rewrite Z2Pos.id by lia. reflexivity. Qed.
Lemma ceiling_frac n d : 0 < d -> Qceiling (frac n d) = - ((- n) / d).
Proof.
  intros H. unfold Qceiling. rewrite (frac_pos n d H). cbn [Qopp Qnum Qden Qfloor].
  rewrite Z2Pos.id by lia. reflexivity.
Qed.
Lemma rem_nonzero n d : 1 < d -> Z.gcd n d = 1 -> Z.rem n d <> 0.
Proof.
  intros L G E. apply Z.rem_divide in E; [|lia].
  assert (Z.gcd n d = d).
  { rewrite Z.gcd_comm. apply Z.divide_gcd_iff in E; lia. }
  lia.
Qed.
Lemma div_quot_neg n d : 0 < d -> n < 0 -> Z.rem n d <> 0 -> n / d = Z.quot n d - 1.
Proof.
  intros Hd Hn Hr. pose proof (Z.quot_rem n d ltac:(lia)) as Q. pose proof (Z.rem_bound_pos_neg n d Hd ltac:(lia)).
  symmetry. apply (Z.div_unique_pos n d _ (Z.rem n d + d)); lia.
Qed.
Lemma div_quot_pos n d : 0 < d -> 0 <= n -> n / d = Z.quot n d.
Proof. intros. symmetry. apply Z.quot_div_nonneg; lia. Qed.
Lemma sign_frac n d : 0 < d -> csign (frac n d ?= 0)%Q = Z.sgn n.
Proof. intros H. rewrite frac_cmp by lia. rewrite (Z.sgn_pos d) by lia. lia. Qed.
Lemma truncate_spec x : rwf x ->
  exists i, truncate_prim x = Some i /\ inear i /\
    ival i = (if Qle_bool 0 (rq x) then Qfloor (rq x) else Qceiling (rq x)).
Proof.
  destruct x as [i|n d]; cbn [truncate_prim rwf rcanon rq].
  - intros H. exists i. split; [auto|]. split; [auto|].
    destruct (Qle_bool 0 (inject_Z (ival i))); [rewrite Qfloor_Z|rewrite Qceiling_Z]; reflexivity.
  - intros (Cn & Cd & L & G). destruct (iquotient_spec n d (icanon_ok _ Cn) (icanon_ok _ Cd) ltac:(lia)) as (q & E & C & V).
    exists q. split; [auto|]. split; [apply icanon_near; auto|]. rewrite V.
    pose proof (rem_nonzero _ _ L G) as NR. pose proof (sign_frac (ival n) (ival d) ltac:(lia)) as S.
    rewrite floor_frac, ceiling_frac by lia.
    destruct (Qle_bool 0 (frac (ival n) (ival d))) eqn:B.
    + apply Qle_bool_iff in B. assert (0 <= ival n).
      { destruct (Qcompare_spec (frac (ival n) (ival d)) 0) as [EE|LL|LL]; cbn [csign] in S; try lia.
        exfalso. apply (Qlt_not_le _ _ LL B). }
      rewrite div_quot_pos by lia. reflexivity.
    + assert (~ (0 <= frac (ival n) (ival d))%Q) as NB by (rewrite <- Qle_bool_iff; congruence).
      assert (ival n < 0).
      { destruct (Qcompare_spec (frac (ival n) (ival d)) 0) as [EE|LL|LL]; cbn [csign] in S; try lia; exfalso; apply NB.
        - rewrite EE. apply Qle_refl.
        - apply Qlt_le_weak. auto. }
      rewrite div_quot_pos by lia. rewrite Z.quot_opp_l by lia. lia.
Qed.
Lemma cmp0 x : rok x -> numcompare x (RI (Fix 0)) = Some (csign (rq x ?= 0)%Q).
Proof. intros H. rewrite numcompare_spec by (auto; apply fix0_ok). reflexivity. Qed.
Lemma floor_spec x : rwf x ->
  exists i, floor_prim x = Some i /\ inear i /\ ival i = Qfloor (rq x).
Proof.
  intros W. destruct x as [i|n d]; unfold floor_prim.
  - exists i. split; [auto|]. split; [exact W|]. cbn [rq]. rewrite Qfloor_Z. reflexivity.
  - rewrite cmp0 by (apply rwf_ok; auto). cbn [rwf rcanon rq] in *.
    destruct W as (Cn & Cd & L & G). destruct (iquotient_spec n d (icanon_ok _ Cn) (icanon_ok _ Cd) ltac:(lia)) as (q & -> & C & V).
    rewrite sign_frac by lia. rewrite floor_frac by lia. pose proof (rem_nonzero _ _ L G) as NR.
    destruct (Z.ltb_spec (Z.sgn (ival n)) 0).
    + destruct (isubtract_spec q (Fix 1) (icanon_ok _ C) fix1_ok) as (i & E & O & Vi & Ni).
      exists i. split; [auto|]. split; [auto|]. rewrite Vi, V. rewrite div_quot_neg by lia. reflexivity.
    + exists q. split; [auto|]. split; [apply icanon_near; auto|]. rewrite V, div_quot_pos by lia. reflexivity.
Qed.
Lemma ceiling_spec x : rwf x ->
  exists i, ceiling_prim x = Some i /\ inear i /\ ival i = Qceiling (rq x).
Proof.
  intros W. destruct x as [i|n d]; unfold ceiling_prim.
  - exists i. split; [auto|]. split; [exact W|]. cbn [rq]. rewrite Qceiling_Z. reflexivity.
  - rewrite cmp0 by (apply rwf_ok; auto). cbn [rwf rcanon rq] in *.
    destruct W as (Cn & Cd & L & G). destruct (iquotient_spec n d (icanon_ok _ Cn) (icanon_ok _ Cd) ltac:(lia)) as (q & -> & C & V).
    rewrite sign_frac by lia. rewrite ceiling_frac by lia. pose proof (rem_nonzero _ _ L G) as NR.
    destruct (Z.ltb_spec 0 (Z.sgn (ival n))).
    + destruct (iplus_spec q (Fix 1) (icanon_ok _ C) fix1_ok) as (i & E & O & Vi & Ni).
      exists i. split; [auto|]. split; [apply Ni; split; [apply icanon_near; auto|cbn; fx; lia]|].
      rewrite Vi, V. rewrite div_quot_neg; [rewrite Z.quot_opp_l by lia; cbn [ival]; lia|lia|lia|].
      rewrite Z.rem_opp_l by lia. lia.
    + exists q. split; [auto|]. split; [apply icanon_near; auto|].
      rewrite V, div_quot_pos by lia. rewrite Z.quot_opp_l by lia. lia.
Qed.
(** Rounding a positive rational whose denominator is even goes to the nearest integer. *)
Lemma round_spec_even n d : rwf (RR n d) -> 0 <= ival n -> Z.even (ival d) = true ->
  exists i, round_prim (RR n d) = Some i /\ inear i /\ ival i = Qfloor (rq (RR n d) + (1 # 2)).
Proof.
  intros W P Ev. unfold round_prim. rewrite cmp0 by (apply rwf_ok; auto). cbn [rwf rcanon rq] in *.
  destruct W as (Cn & Cd & L & G). pose proof (icanon_ok _ Cn) as On. pose proof (icanon_ok _ Cd) as Od.
  destruct (iquotient_spec n d On Od ltac:(lia)) as (q & -> & C & V).
  destruct (iremainder_spec n d On Od ltac:(lia)) as (r & -> & Cr & Vr).
  assert (F2 : iok (Fix 2)) by (cbn; fx; lia).
  destruct (iquotient_spec d (Fix 2) Od F2 ltac:(cbn; lia)) as (h & -> & Ch & Vh). cbn [ival] in Vh.
  rewrite numcompare_int by (apply icanon_ok; auto).
  rewrite sign_frac by lia.
  apply Z.even_spec in Ev. destruct Ev as [k Ek].
  assert (Hh : ival h = k). { rewrite Vh, Ek. rewrite Z.mul_comm. apply Z.quot_mul. lia. }
  assert (E2 : (frac (ival n) (ival d) + (1 # 2) == frac (2 * ival n + ival d) (2 * ival d))%Q).
  { setoid_replace (1 # 2)%Q with (frac 1 2) by reflexivity. rewrite frac_add by lia. apply frac_eq; lia. }
  rewrite (Qfloor_comp _ _ E2), floor_frac by lia.
  pose proof (Z.quot_rem (ival n) (ival d) ltac:(lia)) as QR. rewrite <- V, <- Vr in QR.
  pose proof (Z.rem_bound_pos (ival n) (ival d) P ltac:(lia)) as RB. rewrite <- Vr in RB.
  assert (CS : (csign (ival r ?= ival h) <? 0) = (ival r <? ival h)).
  { destruct (Z.compare_spec (ival r) (ival h)); destruct (Z.ltb_spec (ival r) (ival h)); cbn; lia. }
  rewrite CS. destruct (Z.ltb_spec (ival r) (ival h)).
  - exists q. split; [auto|]. split; [apply icanon_near; auto|].
    apply (Z.div_unique_pos _ _ _ (2 * ival r + ival d)); lia.
  - destruct (Z.ltb_spec (Z.sgn (ival n)) 0); [lia|].
    destruct (iplus_spec q (Fix 1) (icanon_ok _ C) fix1_ok) as (i & E & O & Vi & Ni).
    exists i. split; [auto|]. split; [apply Ni; split; [apply icanon_near; auto|cbn; fx; lia]|].
    rewrite Vi. cbn [ival]. apply (Z.div_unique_pos _ _ _ (2 * ival r - ival d)); lia.
Qed.

(** ** Absolute value and parity *)

Lemma abs_spec x : rwf x -> exists r, abs_prim x = Some (Val r) /\ rwf r /\ (rq r == Qabs.Qabs (rq x))%Q.
Proof.
  intros W. pose proof (rwf_ok x W) as O.
  assert (G : exists r, (do c <- numcompare x (RI (Fix 0)); if c <? 0 then rsubtract (RI (Fix 0)) x else Some (Val x))
     = Some (Val r) /\ rwf r /\ (rq r == Qabs.Qabs (rq x))%Q).
  { rewrite cmp0 by auto. destruct (Qcompare_spec (rq x) 0) as [E|L|L]; cbn [csign Z.ltb Z.compare].
    - exists x. split; [auto|]. split; [auto|]. rewrite E. reflexivity.
    - destruct (rsubtract_spec (RI (Fix 0)) x fix0_ok O) as (r & -> & Or & Q & C). exists r.
      split; [auto|]. split; [apply C; split; [apply rwf_zero|auto]|].
      rewrite Q, Qabs.Qabs_neg by (apply Qlt_le_weak; auto). cbn [rq ival]. ring.
    - exists x. split; [auto|]. split; [auto|]. rewrite Qabs.Qabs_pos by (apply Qlt_le_weak; auto). reflexivity. }
  unfold abs_prim. destruct x as [[z|b]|n d]; try exact G. clear G.
  cbn [rwf inear rq ival] in *. destruct (Z.ltb_spec z 0).
  - destruct (kno_int_spec (- z)) as (i & -> & C & V); [fx; lia|]. exists (RI i).
    split; [auto|]. split; [apply icanon_near; auto|]. cbn [rq]. rewrite V. unfold Qabs.Qabs, inject_Z.
    replace (Z.abs z) with (- z) by lia. reflexivity.
  - exists (RI (Fix z)). split; [auto|]. split; [auto|]. cbn [rq ival]. unfold Qabs.Qabs, inject_Z.
    replace (Z.abs z) with z by lia. reflexivity.
Qed.
Lemma rem2_odd z : Z.rem z 2 =? 0 = negb (Z.odd z).
Proof.
  rewrite Z.negb_odd. destruct (Z.eqb_spec (Z.rem z 2) 0) as [E|E]; symmetry.
  - apply Z.rem_divide in E; [|lia]. destruct E as [k ->]. rewrite Z.even_mul. rewrite orb_true_r. reflexivity.
  - apply not_true_is_false. intros H. apply Z.even_spec in H. destruct H as [k ->]. apply E.
    rewrite Z.mul_comm. apply Z.rem_mul. lia.
Qed.
Lemma odd_spec x : iok x -> odd_prim x = Some (Z.odd (ival x)).
Proof.
  intros H. destruct x as [z|b].
  - cbn [odd_prim ival]. rewrite rem2_odd, negb_involutive. reflexivity.
  - unfold odd_prim. destruct (iremainder_spec (Big b) (Fix 2)) as (r & -> & C & V);
      [auto|cbn; fx; lia|cbn; lia|]. destruct r as [z|b'].
    + cbn [ival] in *. rewrite V, rem2_odd, negb_involutive. reflexivity.
    + exfalso. cbn in C. destruct C as [_ C]. apply C. cbn [ival] in V. rewrite V.
      pose proof (Z.rem_bound_abs (bval b) 2 ltac:(lia)). fx. lia.
Qed.
Lemma even_spec x : iok x -> even_prim x = Some (Z.even (ival x)).
Proof.
  intros H. destruct x as [z|b].
  - cbn [even_prim ival]. rewrite rem2_odd, Z.negb_odd. reflexivity.
  - unfold even_prim. destruct (iremainder_spec (Big b) (Fix 2)) as (r & -> & C & V);
      [auto|cbn; fx; lia|cbn; lia|]. destruct r as [z|b'].
    + cbn [ival] in *. rewrite V, rem2_odd, Z.negb_odd. reflexivity.
    + exfalso. cbn in C. destruct C as [_ C]. apply C. cbn [ival] in V. rewrite V.
      pose proof (Z.rem_bound_abs (bval b) 2 ltac:(lia)). fx. lia.
Qed.

(** ** N-ary operations *)

Definition qsum (l : list real) : Q := fold_right (fun x q => (rq x + q)%Q) 0%Q l.
Definition qprod (l : list real) : Q := fold_right (fun x q => (rq x * q)%Q) 1%Q l.
Lemma fold_res_spec (f : real -> real -> option (res real)) (op : Q -> Q -> Q) l :
  (forall x y, rok x -> rok y -> real_res (f x y) (op (rq x) (rq y)) (rwf x /\ rwf y)) ->
  (forall a b c d, (a == b -> c == d -> op a c == op b d)%Q) ->
  Forall rok l -> forall acc, rok acc ->
  real_res (fold_res f (Val acc) l) (fold_left (fun q x => op q (rq x)) l (rq acc)) (rwf acc /\ Forall rwf l).
Proof.
  intros Hf Hop. induction l as [|y t IH]; intros HF acc Ha; cbn [fold_res fold_left].
  - exists acc. split; [auto|]. split; [auto|]. split; [reflexivity|tauto].
  - inversion HF; subst. cbn [rop].
    destruct (Hf acc y Ha H1) as (r & -> & Or & Q & C).
    destruct (IH H2 r Or) as (r' & E & Or' & Q' & C'). exists r'.
    split; [auto|]. split; [auto|]. split.
    + rewrite Q'. clear - Q Hop. revert Q. generalize (rq r), (op (rq acc) (rq y)).
      induction t as [|z t IHt]; intros a b E; cbn [fold_left]; [exact E|].
      apply IHt. apply Hop; [exact E|reflexivity].
    + intros [A B]. inversion B; subst. apply C'. split; auto.
Qed.
Lemma fold_sum l a : (fold_left (fun q x => q + rq x) l a == a + qsum l)%Q.
Proof.
  revert a. induction l as [|x t IH]; intros a; cbn [fold_left qsum fold_right]; [ring|].
  rewrite IH. unfold qsum. ring.
Qed.
Lemma fold_diff l a : (fold_left (fun q x => q - rq x) l a == a - qsum l)%Q.
Proof.
  revert a. induction l as [|x t IH]; intros a; cbn [fold_left qsum fold_right]; [ring|].
  rewrite IH. unfold qsum. ring.
Qed.
Lemma fold_prod l a : (fold_left (fun q x => q * rq x) l a == a * qprod l)%Q.
Proof.
  revert a. induction l as [|x t IH]; intros a; cbn [fold_left qprod fold_right]; [ring|].
  rewrite IH. unfold qprod. ring.
Qed.
Definition zsum (l : list Z) : Z := fold_right Z.add 0 l.
Definition zabs (l : list Z) : Z := fold_right (fun z a => Z.abs z + a) 0 l.
Lemma all_fix_map l zs : all_fix l = Some zs -> l = map (fun z => RI (Fix z)) zs.
Proof.
  revert zs. induction l as [|x t IH]; intros zs H; cbn in H; [injection H as <-; reflexivity|].
  destruct x as [[z|b]|n d]; try discriminate. destruct (all_fix t); [|discriminate]. injection H as <-.
  cbn [map]. f_equal. auto.
Qed.
Lemma qsum_map zs : (qsum (map (fun z => RI (Fix z)) zs) == inject_Z (zsum zs))%Q.
Proof.
  induction zs as [|z t IH]; cbn [map qsum fold_right zsum rq ival]; [reflexivity|].
  rewrite inject_Z_plus. unfold qsum in IH. rewrite IH. reflexivity.
Qed.
Lemma zabs_nonneg l : 0 <= zabs l.
Proof. induction l as [|z t IH]; unfold zabs in *; cbn [fold_right]; lia. Qed.
Lemma sum64_spec l acc : Z.abs acc + zabs l <= 9223372036854775807 -> sum64 l acc = Some (acc + zsum l).
Proof.
  revert acc. induction l as [|z t IH]; intros acc H; cbn [sum64 zabs zsum fold_right] in *; [f_equal; lia|].
  fold (zabs t) in H. fold (zsum t). pose proof (zabs_nonneg t).
  rewrite int64_some by lia. rewrite IH by lia. f_equal. lia.
Qed.
Lemma diff64_spec l acc : Z.abs acc + zabs l <= 9223372036854775807 -> diff64 l acc = Some (acc - zsum l).
Proof.
  revert acc. induction l as [|z t IH]; intros acc H; cbn [diff64 zabs zsum fold_right] in *; [f_equal; lia|].
  fold (zabs t) in H. fold (zsum t). pose proof (zabs_nonneg t).
  rewrite int64_some by lia. rewrite IH by lia. f_equal. lia.
Qed.
Lemma zsum_abs l : Z.abs (zsum l) <= zabs l.
Proof. induction l as [|z t IH]; unfold zabs, zsum in *; cbn [fold_right]; lia. Qed.
(** The sum of the absolute values of fixnum arguments fits a long long. *)
Definition fits64 (l : list real) : Prop := forall zs, all_fix l = Some zs -> zabs zs <= 9223372036854775807.
Lemma real_res_q o q q' (c c' : Prop) : real_res o q c -> (q == q')%Q -> (c' -> c) -> real_res o q' c'.
Proof. intros (r & E & O & Q & C) HQ HC. exists r. rewrite <- HQ. tauto. Qed.
Lemma real_res_int o z (c : Prop) : (exists i, o = Some i /\ icanon i /\ ival i = z) -> real_res (ival_res o) (inject_Z z) c.
Proof.
  intros (i & -> & C & V). exists (RI i). cbn [ival_res rq]. rewrite V.
  split; [auto|]. split; [apply icanon_ok; auto|]. split; [reflexivity|]. intros _. apply icanon_near; auto.
Qed.
Lemma plus_lexpr_spec l : Forall rok l -> fits64 l -> real_res (plus_lexpr l) (qsum l) (Forall rwf l).
Proof.
  intros HF H6.
  assert (G : real_res match all_fix l with
    | Some zs => ival_res (do s <- sum64 zs 0; kno_int s)
    | None => fold_res rplus (Val (RI (Fix 0))) l
    end (qsum l) (Forall rwf l)).
  { destruct (all_fix l) as [zs|] eqn:E.
    - specialize (H6 zs E). rewrite sum64_spec by (cbn; lia). 
      pose proof (zsum_abs zs). 
      eapply real_res_q; [apply real_res_int, kno_int_spec; lia| |intros; exact I].
      rewrite (all_fix_map l zs E), qsum_map. reflexivity.
    - eapply real_res_q; [apply (fold_res_spec rplus Qplus)|..]; auto.
      + intros; apply rplus_spec; auto.
      + intros a b c d E1 E2. rewrite E1, E2. reflexivity.
      + apply fix0_ok.
      + rewrite fold_sum. cbn [rq ival]. ring.
      + intros W. split; [apply rwf_zero|auto]. }
  unfold plus_lexpr. destruct l as [|x [|y [|z t]]]; try exact G.
  - inversion HF; subst. exists x. split; [auto|]. split; [auto|]. split; [cbn [qsum fold_right]; ring|].
    intros W. inversion W; auto.
  - inversion HF as [|? ? A B]; subst. inversion B; subst.
    eapply real_res_q; [apply rplus_spec; auto|cbn [qsum fold_right]; ring|].
    intros W. inversion W as [|? ? A' B']; subst. inversion B'; subst. auto.
Qed.
Lemma minus_lexpr_spec x l : Forall rok (x :: l) -> fits64 (x :: l) ->
  real_res (minus_lexpr (x :: l)) (match l with [] => - rq x | _ => rq x - qsum l end) (Forall rwf (x :: l)).
Proof.
  intros HF H6. inversion HF as [|? ? Hx Hl]; subst. destruct l as [|y [|z t]].
  - destruct x as [[z|b]|n d].
    + cbn [minus_lexpr]. eapply real_res_q; [apply real_res_int, kno_int_spec|..].
      * cbn in Hx. fx. lia.
      * cbn [rq ival]. rewrite inject_Z_opp. reflexivity.
      * intros _; exact I.
    + eapply real_res_q; [apply (rsubtract_spec (RI (Fix 0)) _ fix0_ok Hx)|cbn [rq ival]; ring|].
      intros W. inversion W; subst. split; [apply rwf_zero|auto].
    + eapply real_res_q; [apply (rsubtract_spec (RI (Fix 0)) _ fix0_ok Hx)|cbn [rq ival]; ring|].
      intros W. inversion W; subst. split; [apply rwf_zero|auto].
  - inversion Hl; subst. 
    assert (E : minus_lexpr [x; y] = rsubtract x y) by (destruct x as [[?|?]|? ?]; reflexivity). rewrite E.
    eapply real_res_q; [apply rsubtract_spec; auto|cbn [qsum fold_right]; ring|].
    intros W. inversion W as [|? ? A' B']; subst. inversion B'; subst. auto.
  - assert (E : minus_lexpr (x :: y :: z :: t) = match all_fix (x :: y :: z :: t) with
      | Some (w :: zs) => ival_res (do s <- diff64 zs w; kno_int s)
      | _ => fold_res rsubtract (Val x) (y :: z :: t) end) by (destruct x as [[?|?]|? ?]; reflexivity).
    rewrite E. clear E. set (l := y :: z :: t) in *.
    destruct (all_fix (x :: l)) as [[|w zs]|] eqn:E.
    + apply all_fix_map in E. discriminate.
    + specialize (H6 _ E). cbn [zabs fold_right] in H6. fold (zabs zs) in H6.
      rewrite diff64_spec by lia. pose proof (zsum_abs zs). 
      eapply real_res_q; [apply real_res_int, kno_int_spec; lia| |intros; exact I].
      apply all_fix_map in E. cbn [map] in E. injection E as -> ->. rewrite qsum_map. cbn [rq ival].
      unfold Z.sub. rewrite inject_Z_plus, inject_Z_opp. reflexivity.
    + eapply real_res_q; [apply (fold_res_spec rsubtract Qminus)|..]; auto.
      * intros; apply rsubtract_spec; auto.
      * intros a b c d E1 E2. rewrite E1, E2. reflexivity.
      * rewrite fold_diff. reflexivity.
      * intros W. inversion W; auto.
Qed.

(** * Proofs about the exact numbers. *)

From Coq Require Import ZArith List Bool Lia QArith Qfield.
From Verif Require Import SortModel BigintModel BigintProofs BigintProofs2 BigintProofs3 BigintProofs4 NumbersModel.
Import ListNotations.
Open Scope Z_scope.

(** ** Integers *)

Definition ival (x : inum) : Z := match x with Fix z => z | Big b => bval b end.
Definition fixr (z : Z) : Prop := min_fixnum <= z <= max_fixnum.
Definition iok (x : inum) : Prop := match x with Fix z => fixr z | Big b => norm b end.
(** Fixnums for what fits, bigints for the rest. *)
Definition icanon (x : inum) : Prop :=
  match x with Fix z => fixr z | Big b => norm b /\ ~ fixr (bval b) end.
Lemma icanon_ok x : icanon x -> iok x.
Proof. destruct x; cbn; tauto. Qed.
(** The two values that the fixnum cases of plus, subtract and multiply represent as
    bigints although they are fixnums. *)
Definition edge (r : Z) : Prop := r = max_fixnum \/ r = min_fixnum.
(** Canonical but for those two. *)
Definition inear (x : inum) : Prop :=
  match x with Fix z => fixr z | Big b => norm b /\ (fixr (bval b) -> edge (bval b)) end.
Lemma icanon_near x : icanon x -> inear x.
Proof. destruct x; cbn; tauto. Qed.
Lemma inear_ok x : inear x -> iok x.
Proof. destruct x; cbn; tauto. Qed.
Lemma inear_canon x : inear x -> ~ edge (ival x) -> icanon x.
Proof. destruct x; cbn; tauto. Qed.
Ltac fx := unfold fixr, min_fixnum, max_fixnum in *.

Lemma kno_int_spec n : -9223372036854775807 <= n <= 9223372036854775807 ->
  exists i, kno_int n = Some i /\ icanon i /\ ival i = n.
Proof.
  intros H. unfold kno_int. destruct (Z.ltb_spec max_fixnum n) as [L|L].
  - cbn [orb]. destruct (long_long_to_bigint_spec n H) as (b & E & N & V). rewrite E.
    exists (Big b). cbn. rewrite V. repeat split; auto; try apply N. fx. lia.
  - destruct (Z.ltb_spec n min_fixnum) as [L2|L2]; cbn [orb].
    + destruct (long_long_to_bigint_spec n H) as (b & E & N & V). rewrite E.
      exists (Big b). cbn. rewrite V. repeat split; auto; try apply N. fx. lia.
    + exists (Fix n). cbn. repeat split; fx; lia.
Qed.
Lemma tobigint_spec x : iok x -> exists b, tobigint x = Some b /\ norm b /\ bval b = ival x.
Proof.
  destruct x as [z|b]; cbn; intros H.
  - apply long_long_to_bigint_spec. fx. lia.
  - exists b. auto.
Qed.
Lemma simplify_spec b : norm b -> exists i, simplify b = Some i /\ icanon i /\ ival i = bval b.
Proof.
  intros N. unfold simplify. rewrite fits_in_word_spec by (auto; unfold fixnum_bits; lia).
  change (2 ^ (fixnum_bits - 1)) with 2305843009213693952.
  destruct (Z.ltb_spec (Z.abs (bval b)) 2305843009213693952).
  - rewrite bigint_to_long_spec by (auto; lia). apply kno_int_spec. lia.
  - exists (Big b). cbn. repeat split; auto; try apply N. fx. lia.
Qed.
Lemma fix_result_spec r : -9223372036854775807 <= r <= 9223372036854775807 ->
  exists i, fix_result r = Some i /\ iok i /\ ival i = r /\ inear i.
Proof.
  intros H. unfold fix_result, edge.
  destruct (Z.ltb_spec r max_fixnum); destruct (Z.ltb_spec min_fixnum r); cbn [andb].
  - destruct (kno_int_spec r H) as (i & E & C & V). exists i. pose proof (icanon_ok i C). pose proof (icanon_near i C). auto.
  - destruct (long_long_to_bigint_spec r H) as (b & E & N & V). rewrite E.
    exists (Big b). cbn. rewrite V. repeat split; auto; try apply N. unfold edge. fx. lia.
  - destruct (long_long_to_bigint_spec r H) as (b & E & N & V). rewrite E.
    exists (Big b). cbn. rewrite V. repeat split; auto; try apply N. unfold edge. fx. lia.
  - fx. lia.
Qed.

(** What each integer operation promises. *)
Definition int_res (o : option inum) (v : Z) (c : Prop) : Prop :=
  exists i, o = Some i /\ iok i /\ ival i = v /\ (c -> inear i).

Lemma iplus_spec x y : iok x -> iok y ->
  int_res (iplus x y) (ival x + ival y) (inear x /\ inear y).
Proof.
  intros Hx Hy. unfold iplus, int_res.
  assert (G : exists i, (do bx <- tobigint x; do b_y <- tobigint y; do r <- bigint_add bx b_y; simplify r) = Some i
     /\ iok i /\ ival i = ival x + ival y /\ (inear x /\ inear y -> inear i)).
  { destruct (tobigint_spec x Hx) as (bx & -> & Nx & Vx). destruct (tobigint_spec y Hy) as (b_y & -> & Ny & Vy).
    destruct (bigint_add_spec bx b_y Nx Ny) as (r & -> & Nr & Vr).
    destruct (simplify_spec r Nr) as (i & E & C & V). exists i. pose proof (icanon_ok i C). pose proof (icanon_near i C).
    repeat split; auto. lia. }
  destruct x as [ix|bx], y as [iy|b_y].
  - clear G. destruct (Z.eqb_spec ix 0) as [->|]. { exists (Fix iy). cbn in *. repeat split; fx; lia. }
    destruct (Z.eqb_spec iy 0) as [->|]. { exists (Fix ix). cbn in *. repeat split; fx; lia. }
    cbn [iok ival] in *. assert (-9223372036854775807 <= ix + iy <= 9223372036854775807) by (fx; lia).
    rewrite int64_some by lia. destruct (fix_result_spec _ H) as (i & E & O & V & C). exists i. intuition.
  - destruct ix; try exact G. exists (Big b_y). cbn in *. repeat split; try apply Hy; tauto.
  - destruct iy; try exact G. exists (Big bx). cbn in *. rewrite Z.add_0_r. repeat split; try apply Hx; tauto.
  - exact G.
Qed.
Lemma isubtract_spec x y : iok x -> iok y ->
  int_res (isubtract x y) (ival x - ival y) True.
Proof.
  intros Hx Hy. unfold isubtract, int_res.
  assert (G : exists i, (do bx <- tobigint x; do b_y <- tobigint y; do r <- bigint_subtract bx b_y; simplify r) = Some i
     /\ iok i /\ ival i = ival x - ival y /\ (True -> inear i)).
  { destruct (tobigint_spec x Hx) as (bx & -> & Nx & Vx). destruct (tobigint_spec y Hy) as (b_y & -> & Ny & Vy).
    destruct (bigint_subtract_spec bx b_y Nx Ny) as (r & -> & Nr & Vr).
    destruct (simplify_spec r Nr) as (i & E & C & V). exists i. pose proof (icanon_ok i C). pose proof (icanon_near i C).
    repeat split; auto. lia. }
  destruct x as [ix|bx], y as [iy|b_y]; try exact G. clear G. cbn [iok ival] in *.
  assert (-9223372036854775807 <= ix - iy <= 9223372036854775807) by (fx; lia).
  rewrite int64_some by lia. destruct (fix_result_spec _ H) as (i & E & O & V & C). exists i. intuition.
Qed.
Lemma big_multiply_spec x y : iok x -> iok y ->
  exists i, big_multiply x y = Some i /\ icanon i /\ ival i = ival x * ival y.
Proof.
  intros Hx Hy. unfold big_multiply.
  destruct (tobigint_spec x Hx) as (bx & -> & Nx & Vx). destruct (tobigint_spec y Hy) as (b_y & -> & Ny & Vy).
  destruct (bigint_multiply_spec bx b_y Nx Ny) as (r & -> & Nr & Vr).
  destruct (simplify_spec r Nr) as (i & E & C & V). exists i. rewrite V, Vr, Vx, Vy. auto.
Qed.
(** A product whose factors pass the test of kno_multiply is a fixnum. *)
Lemma product_fits ix iy : fixr ix -> fixr iy -> ix <> 0 -> iy <> 0 ->
  (if 0 <? ix then (if 0 <? iy then Z.quot max_fixnum iy else Z.quot min_fixnum iy) <? ix
   else (if 0 <? iy then Z.quot max_fixnum iy else Z.quot min_fixnum iy) <? - ix) = false ->
  fixr (ix * iy).
Proof.
  intros Hx Hy Nx Ny. 
  assert (E : (if 0 <? iy then Z.quot max_fixnum iy else Z.quot min_fixnum iy) = max_fixnum / Z.abs iy).
  { destruct (Z.ltb_spec 0 iy).
    - rewrite Z.abs_eq by lia. apply Z.quot_div_nonneg; unfold max_fixnum; lia.
    - rewrite Z.abs_neq by lia. change min_fixnum with (- max_fixnum).
      replace iy with (- - iy) at 1 by lia. rewrite Z.quot_opp_opp by lia.
      apply Z.quot_div_nonneg; unfold max_fixnum; lia. }
  rewrite E. intros T.
  assert (HA : Z.abs ix <= max_fixnum / Z.abs iy).
  { destruct (Z.ltb_spec 0 ix); apply Z.ltb_ge in T; lia. }
  assert (Z.abs iy * (max_fixnum / Z.abs iy) <= max_fixnum) by (apply Z.mul_div_le; lia).
  assert (Z.abs (ix * iy) <= max_fixnum) by (rewrite Z.abs_mul; nia).
  unfold fixr. change min_fixnum with (- max_fixnum). lia.
Qed.
Lemma imultiply_spec x y : iok x -> iok y ->
  int_res (imultiply x y) (ival x * ival y) (inear x /\ inear y).
Proof.
  intros Hx Hy. unfold imultiply, int_res.
  assert (G : exists i, big_multiply x y = Some i
     /\ iok i /\ ival i = ival x * ival y /\ (inear x /\ inear y -> inear i)).
  { destruct (big_multiply_spec x y Hx Hy) as (i & E & C & V). exists i. pose proof (icanon_ok i C). pose proof (icanon_near i C). auto. }
  assert (Z0 : fixr 0) by (fx; lia).
  destruct x as [ix|bx], y as [iy|b_y].
  - destruct (Z.eqb_spec iy 0) as [->|N1]. { exists (Fix 0). cbn [orb iok ival icanon]. rewrite Z.mul_0_r. auto. }
    destruct (Z.eqb_spec ix 0) as [->|N2]. { exists (Fix 0). cbn [orb iok ival icanon]. auto. }
    cbn [orb].
    destruct (Z.eqb_spec ix 1) as [->|N3]. { exists (Fix iy). cbn [iok ival icanon] in *. repeat split; fx; lia. }
    destruct (Z.eqb_spec iy 1) as [->|N4]. { exists (Fix ix). cbn [iok ival icanon] in *. repeat split; fx; lia. }
    match goal with |- context [if ?c then big_multiply _ _ else _] => destruct c eqn:T end; [exact G|].
    cbn [iok ival] in *. pose proof (product_fits ix iy Hx Hy N2 N1 T) as P.
    assert (B : -9223372036854775807 <= ix * iy <= 9223372036854775807) by (fx; lia).
    rewrite int64_some by lia.
    destruct (fix_result_spec _ B) as (i & E & O & V & C). exists i. intuition.
  - destruct ix as [|[p|p|]|p]; try exact G.
    exists (Big b_y). cbn [iok ival]. rewrite Z.mul_1_l. cbn in Hy. tauto.
  - destruct iy as [|[p|p|]|p]; try exact G.
    + exists (Fix 0). cbn [iok ival icanon]. rewrite Z.mul_0_r. auto.
    + exists (Big bx). cbn [iok ival]. rewrite Z.mul_1_r. cbn in Hx. tauto.
  - exact G.
Qed.
Lemma iquotient_spec x y : iok x -> iok y -> ival y <> 0 ->
  exists i, iquotient x y = Some i /\ icanon i /\ ival i = Z.quot (ival x) (ival y).
Proof.
  intros Hx Hy Ny. unfold iquotient.
  assert (G : exists i, (do bx <- tobigint x; do b_y <- tobigint y; do r <- bigint_quotient bx b_y;
     match r with Some q => simplify q | None => None end) = Some i /\ icanon i /\ ival i = Z.quot (ival x) (ival y)).
  { destruct (tobigint_spec x Hx) as (bx & -> & Nx & Vx). destruct (tobigint_spec y Hy) as (b_y & -> & Nby & Vy).
    pose proof (bigint_quotient_spec bx b_y Nx Nby) as Q.
    destruct (bzero_p b_y) eqn:Z. { apply bval_zero in Z. congruence. }
    destruct Q as (q & -> & Nq & Vq). rewrite <- Vx, <- Vy, <- Vq. apply simplify_spec; auto. }
  destruct x as [ix|bx], y as [iy|b_y]; try exact G. cbn [ival] in *.
  destruct (Z.eqb_spec iy 0); [congruence|]. apply kno_int_spec.
  pose proof (Z.quot_abs ix iy Ny) as A.
  assert (Z.abs (Z.quot ix iy) <= Z.abs ix).
  { rewrite <- Z.quot_abs by auto. apply Z.quot_le_upper_bound; nia. }
  cbn in Hx. fx. lia.
Qed.
Lemma iremainder_spec x y : iok x -> iok y -> ival y <> 0 ->
  exists i, iremainder x y = Some i /\ icanon i /\ ival i = Z.rem (ival x) (ival y).
Proof.
  intros Hx Hy Ny. unfold iremainder.
  assert (G : exists i, (do bx <- tobigint x; do b_y <- tobigint y; do r <- bigint_remainder bx b_y;
     match r with Some q => simplify q | None => None end) = Some i /\ icanon i /\ ival i = Z.rem (ival x) (ival y)).
  { destruct (tobigint_spec x Hx) as (bx & -> & Nx & Vx). destruct (tobigint_spec y Hy) as (b_y & -> & Nby & Vy).
    pose proof (bigint_remainder_spec bx b_y Nx Nby) as Q.
    destruct (bzero_p b_y) eqn:Z. { apply bval_zero in Z. congruence. }
    destruct Q as (q & -> & Nq & Vq). rewrite <- Vx, <- Vy, <- Vq. apply simplify_spec; auto. }
  destruct x as [ix|bx], y as [iy|b_y]; try exact G. cbn [ival] in *.
  destruct (Z.eqb_spec iy 0); [congruence|]. apply kno_int_spec.
  pose proof (Z.rem_bound_abs ix iy Ny). cbn in Hy. fx. lia.
Qed.
Lemma isign_spec x : iok x -> isign x = Z.sgn (ival x).
Proof.
  destruct x as [z|b]; cbn; intros H.
  - destruct (Z.ltb_spec z 0); [rewrite Z.sgn_neg; lia|]. destruct (Z.ltb_spec 0 z); [rewrite Z.sgn_pos; lia|].
    replace z with 0 by lia. reflexivity.
  - rewrite bigint_test_spec by auto. destruct (Z.compare_spec (bval b) 0) as [E|E|E].
    + rewrite E. reflexivity.
    + rewrite Z.sgn_neg; lia.
    + rewrite Z.sgn_pos; lia.
Qed.

(** ** Greatest common divisors *)

Lemma rem_half x a : 0 <= x -> 0 < a -> 0 < Z.rem x a -> 2 * Z.rem a (Z.rem x a) < a.
Proof.
  intros Hx Ha Hr. rewrite Z.rem_mod_nonneg in * by lia.
  pose proof (Z.mod_pos_bound x a Ha). rewrite Z.rem_mod_nonneg by lia.
  pose proof (Z.mod_pos_bound a (x mod a) Hr) as B. pose proof (Z.div_mod a (x mod a) ltac:(lia)) as D.
  assert (1 <= a / (x mod a)) by (apply Z.div_le_lower_bound; lia). nia.
Qed.
Lemma gcd_rem x a : 0 <= x -> 0 < a -> Z.gcd a (Z.rem x a) = Z.gcd x a.
Proof.
  intros Hx Ha. rewrite Z.rem_mod_nonneg by lia. rewrite Z.gcd_comm.
  rewrite Z.gcd_mod by lia. apply Z.gcd_comm.
Qed.
Lemma fix_gcd_loop_spec k : forall fuel x a, 0 <= x -> 0 <= a < 2 ^ Z.of_nat k -> (2 * k + 1 <= fuel)%nat ->
  fix_gcd_loop fuel x a = Some (Z.gcd x a).
Proof.
  induction k as [|k IH]; intros fuel x a Hx Ha HF.
  - change (2 ^ Z.of_nat 0) with 1 in Ha. assert (a = 0) by lia. subst a. destruct fuel; [lia|].
    cbn [fix_gcd_loop Z.eqb]. rewrite Z.gcd_0_r. f_equal. lia.
  - destruct fuel as [|[|fuel]]; [lia|lia|]. cbn [fix_gcd_loop].
    destruct (Z.eqb_spec a 0) as [->|Na]; [rewrite Z.gcd_0_r; f_equal; lia|].
    pose proof (Z.rem_bound_pos x a Hx ltac:(lia)) as R.
    destruct (Z.eqb_spec (Z.rem x a) 0) as [E|NE].
    + f_equal. rewrite <- (gcd_rem x a) by lia. rewrite E, Z.gcd_0_r. lia.
    + rewrite IH.
      * rewrite gcd_rem by lia. rewrite gcd_rem by lia. reflexivity.
      * lia.
      * pose proof (rem_half x a Hx ltac:(lia) ltac:(lia)).
        pose proof (Z.rem_bound_pos a (Z.rem x a) ltac:(lia) ltac:(lia)).
        rewrite Nat2Z.inj_succ, Z.pow_succ_r in Ha by lia. lia.
      * lia.
Qed.
Lemma gcd_fuel_ok a : exists k, Z.abs a < 2 ^ Z.of_nat k /\ (2 * k + 1 <= gcd_fuel a)%nat.
Proof.
  unfold gcd_fuel. pose proof (Z.log2_nonneg (Z.abs a)).
  exists (Z.to_nat (Z.log2 (Z.abs a) + 1)). split; [|lia]. rewrite Z2Nat.id by lia.
  destruct (Z.eq_dec a 0) as [->|]; [reflexivity|].
  pose proof (Z.log2_spec (Z.abs a) ltac:(lia)) as L. rewrite Z.add_1_r. lia.
Qed.
Lemma fix_gcd_spec x y : fix_gcd x y = Some (Z.gcd x y).
Proof.
  unfold fix_gcd. destruct (gcd_fuel_ok y) as (k & B & F).
  rewrite (fix_gcd_loop_spec k) by (auto; lia). rewrite Z.gcd_abs_l, Z.gcd_abs_r. reflexivity.
Qed.
Lemma int_gcd_loop_spec k : forall fuel x a, iok x -> iok a -> 0 <= ival x -> 0 <= ival a < 2 ^ Z.of_nat k ->
  (2 * k + 1 <= fuel)%nat ->
  exists g, int_gcd_loop fuel x a = Some g /\ iok g /\ ival g = Z.gcd (ival x) (ival a)
    /\ (inear x -> inear a -> inear g).
Proof.
  induction k as [|k IH]; intros fuel x a Ox Oa Hx Ha HF.
  - change (2 ^ Z.of_nat 0) with 1 in Ha. assert (E : ival a = 0) by lia. destruct fuel; [lia|].
    cbn [int_gcd_loop]. rewrite isign_spec, E by auto. cbn [Z.sgn Z.eqb]. rewrite Z.gcd_0_r.
    exists x. repeat split; auto. lia.
  - destruct fuel as [|[|fuel]]; [lia|lia|]. cbn [int_gcd_loop].
    rewrite isign_spec by auto.
    destruct (Z.eqb_spec (Z.sgn (ival a)) 0) as [E|Na].
    { apply (proj1 (Z.sgn_null_iff _)) in E. rewrite E, Z.gcd_0_r. exists x. repeat split; auto. lia. }
    assert (Na' : ival a <> 0) by (intros E; apply Na; rewrite E; reflexivity).
    destruct (iremainder_spec x a Ox Oa Na') as (r & -> & Cr & Vr). pose proof (icanon_ok r Cr) as Or.
    rewrite isign_spec by auto.
    pose proof (Z.rem_bound_pos (ival x) (ival a) Hx ltac:(lia)) as R. rewrite <- Vr in R.
    destruct (Z.eqb_spec (Z.sgn (ival r)) 0) as [E|NE].
    + apply (proj1 (Z.sgn_null_iff _)) in E. exists a. repeat split; auto.
      rewrite <- (gcd_rem (ival x) (ival a)) by lia. rewrite <- Vr, E, Z.gcd_0_r. lia.
    + assert (NE' : ival r <> 0) by (intros E; apply NE; rewrite E; reflexivity).
      destruct (iremainder_spec a r Oa Or NE') as (r2 & -> & Cr2 & Vr2). pose proof (icanon_ok r2 Cr2) as Or2.
      pose proof (rem_half (ival x) (ival a) Hx ltac:(lia) ltac:(lia)) as RH. rewrite <- Vr, <- Vr2 in RH.
      pose proof (Z.rem_bound_pos (ival a) (ival r) ltac:(lia) ltac:(lia)) as R2. rewrite <- Vr2 in R2.
      destruct (IH fuel r r2) as (g & E & Og & Vg & Cg); auto; try lia.
      { rewrite Nat2Z.inj_succ, Z.pow_succ_r in Ha by lia. lia. }
      exists g. pose proof (icanon_near _ Cr). pose proof (icanon_near _ Cr2).
      repeat split; auto. rewrite Vg, Vr2, gcd_rem by lia. rewrite Vr, gcd_rem by lia. reflexivity.
Qed.
Lemma inorm_sign_spec x : iok x -> exists i, inorm_sign x = Some i /\ iok i /\ ival i = Z.abs (ival x)
  /\ (inear x -> inear i).
Proof.
  intros H. unfold inorm_sign. destruct x as [z|b].
  - destruct (Z.ltb_spec z 0).
    + destruct (kno_int_spec (- z)) as (i & E & C & V); [cbn in H; fx; lia|].
      exists i. pose proof (icanon_ok i C). pose proof (icanon_near i C). cbn [ival]. repeat split; auto. lia.
    + exists (Fix z). cbn in *. repeat split; auto; try lia; fx; lia.
  - rewrite isign_spec by auto. destruct (Z.eqb_spec (Z.sgn (ival (Big b))) (-1)) as [E|E].
    + assert (L : ival (Big b) < 0) by (apply Z.sgn_neg_iff; auto).
      destruct (isubtract_spec (Fix 0) (Big b)) as (i & EI & O & V & C); [cbn; fx; lia|auto|].
      exists i. repeat split; auto. cbn [ival] in *; lia.
    + exists (Big b). split; [auto|]. split; [auto|]. split; [|auto]. cbn [ival] in *. lia.
Qed.
Lemma int_gcd_spec x y : iok x -> iok y ->
  int_res (int_gcd x y) (Z.gcd (ival x) (ival y)) (inear x /\ inear y).
Proof.
  intros Hx Hy. unfold int_gcd, int_res.
  assert (G : exists i, (do x' <- inorm_sign x; do y' <- inorm_sign y; int_gcd_loop (int_gcd_fuel y') x' y') = Some i
    /\ iok i /\ ival i = Z.gcd (ival x) (ival y) /\ (inear x /\ inear y -> inear i)).
  { destruct (inorm_sign_spec x Hx) as (x' & -> & Ox & Vx & Cx).
    destruct (inorm_sign_spec y Hy) as (y' & -> & Oy & Vy & Cy).
    assert (F : exists k, ival y' < 2 ^ Z.of_nat k /\ (2 * k + 1 <= int_gcd_fuel y')%nat).
    { destruct y' as [z|b]; cbn [int_gcd_fuel ival] in *.
      - destruct (gcd_fuel_ok z) as (k & B & F). exists k. split; auto. lia.
      - exists (30 * blength b)%nat. split; [|lia]. rewrite Nat2Z.inj_mul.
        change (Z.of_nat 30) with 30. unfold blength. rewrite <- bp_pow.
        pose proof (bval_abs b Oy). destruct Oy as (D & _). pose proof (val_range _ D). lia. }
    destruct F as (k & B & F).
    destruct (int_gcd_loop_spec k (int_gcd_fuel y') x' y') as (g & E & Og & Vg & Cg); auto; try lia.
    exists g. repeat split; auto; [|tauto]. rewrite Vg, Vx, Vy, Z.gcd_abs_l, Z.gcd_abs_r. reflexivity. }
  destruct x as [ix|bx], y as [iy|b_y]; try exact G. clear G.
  rewrite fix_gcd_spec. cbn [ival iok] in *.
  destruct (kno_int_spec (Z.gcd ix iy)) as (i & E & C & V).
  { pose proof (Z.gcd_nonneg ix iy).
    assert (Z.gcd ix iy <= Z.abs ix + Z.abs iy).
    { destruct (Z.eq_dec ix 0) as [->|]; [rewrite Z.gcd_0_l; lia|].
      pose proof (Z.gcd_divide_l ix iy) as D. apply Z.divide_abs_r in D. apply Z.divide_pos_le in D; lia. }
    fx. lia. }
  exists i. pose proof (icanon_ok i C). pose proof (icanon_near i C). auto.
Qed.

(** ** Rationals *)

Open Scope Q_scope.
Definition frac (n d : Z) : Q := inject_Z n / inject_Z d.
Lemma inj_nz d : d <> 0%Z -> ~ inject_Z d == 0.
Proof. intros H E. apply H. unfold Qeq, inject_Z in E. cbn in E. lia. Qed.
Lemma frac_eq n d n' d' : d <> 0%Z -> d' <> 0%Z -> (n * d' = n' * d)%Z -> frac n d == frac n' d'.
Proof.
  intros H H' E. unfold frac. pose proof (inj_nz d H). pose proof (inj_nz d' H').
  assert (E2 : inject_Z n * inject_Z d' == inject_Z n' * inject_Z d).
  { rewrite <- !inject_Z_mult. rewrite E. reflexivity. }
  setoid_replace (inject_Z n / inject_Z d) with (inject_Z n * inject_Z d' / (inject_Z d * inject_Z d')) by (field; auto).
  rewrite E2. field. auto.
Qed.
Lemma frac_1 n : frac n 1 == inject_Z n.
Proof. unfold frac. field. Qed.
Lemma frac_add a b c d : b <> 0%Z -> d <> 0%Z -> frac a b + frac c d == frac (a * d + c * b) (b * d).
Proof.
  intros H1 H2. unfold frac. rewrite inject_Z_plus, !inject_Z_mult. field. split; apply inj_nz; auto.
Qed.
Lemma frac_sub a b c d : b <> 0%Z -> d <> 0%Z -> frac a b - frac c d == frac (a * d - c * b) (b * d).
Proof.
  intros H1 H2. unfold frac, Z.sub. rewrite inject_Z_plus, inject_Z_opp, !inject_Z_mult. field.
  split; apply inj_nz; auto.
Qed.
Lemma frac_mul a b c d : b <> 0%Z -> d <> 0%Z -> frac a b * frac c d == frac (a * c) (b * d).
Proof. intros H1 H2. unfold frac. rewrite !inject_Z_mult. field. split; apply inj_nz; auto. Qed.
Lemma frac_div a b c d : b <> 0%Z -> c <> 0%Z -> d <> 0%Z -> frac a b / frac c d == frac (a * d) (b * c).
Proof. intros H1 H2 H3. unfold frac. rewrite !inject_Z_mult. field. repeat split; apply inj_nz; auto. Qed.
Definition csign (c : comparison) : Z := match c with Lt => (-1)%Z | Eq => 0%Z | Gt => 1%Z end.
Lemma frac_cmp n d : d <> 0%Z -> csign (frac n d ?= 0) = (Z.sgn n * Z.sgn d)%Z.
Proof.
  intros H. unfold frac, Qcompare, Qdiv, Qmult, Qinv, inject_Z.
  destruct d as [|p|p]; [congruence|..]; cbn [Qnum Qden Z.sgn]; rewrite !Z.mul_1_r;
    destruct n; reflexivity.
Qed.
Close Scope Q_scope.

Definition rq (x : real) : Q := match x with RI i => inject_Z (ival i) | RR n d => frac (ival n) (ival d) end.
(** A real whose parts are good and whose denominator is not zero. *)
Definition rok (x : real) : Prop :=
  match x with RI i => iok i | RR n d => iok n /\ iok d /\ ival d <> 0 end.
(** Rationals in lowest terms with a denominator above one, integers canonical. *)
Definition rcanon (x : real) : Prop :=
  match x with
  | RI i => icanon i
  | RR n d => icanon n /\ icanon d /\ 1 < ival d /\ Z.gcd (ival n) (ival d) = 1
  end.
(** The same, except that an integer may be one of the two edge values as a bigint. *)
Definition rwf (x : real) : Prop := match x with RI i => inear i | RR _ _ => rcanon x end.
Lemma rcanon_wf x : rcanon x -> rwf x.
Proof. destruct x; cbn [rwf rcanon]; [apply icanon_near|auto]. Qed.
Lemma rwf_ok x : rwf x -> rok x.
Proof.
  destruct x; cbn [rwf rcanon rok]; [apply inear_ok|]. intros (A & B & C & D). apply icanon_ok in A, B. repeat split; auto. lia. Qed.
Lemma rok_num x : rok x -> iok (numerator x).
Proof. destruct x; cbn; tauto. Qed.
Lemma rok_den x : rok x -> iok (denominator x).
Proof. destruct x; cbn; [fx; lia|tauto]. Qed.
Lemma rok_nz x : rok x -> ival (denominator x) <> 0.
Proof. destruct x; cbn; [lia|tauto]. Qed.
Lemma rwf_pos x : rwf x -> 0 < ival (denominator x).
Proof. destruct x; cbn; [lia|]. intros (A & B & C & D). lia. Qed.
Lemma rq_frac x : rok x -> (rq x == frac (ival (numerator x)) (ival (denominator x)))%Q.
Proof. destruct x; cbn [rq numerator denominator ival]; intros H; [rewrite frac_1|]; reflexivity. Qed.

(** What an operation on reals promises. *)
Definition real_res (o : option (res real)) (q : Q) (c : Prop) : Prop :=
  exists r, o = Some (Val r) /\ rok r /\ (rq r == q)%Q /\ (c -> rwf r).

Lemma quot_gcd a g : (g | a) -> g <> 0 -> a = g * Z.quot a g.
Proof. intros [k ->] N. rewrite Z.quot_mul by auto. ring. Qed.
Lemma make_rational_spec num den : iok num -> iok den -> ival den <> 0 ->
  exists r, make_rational num den = Some (Val r) /\ rok r /\ (rq r == frac (ival num) (ival den))%Q
    /\ (0 < ival den -> rcanon r).
Proof.
  intros On Od Nd. unfold make_rational.
  set (g := Z.gcd (ival num) (ival den)).
  assert (Ng : 0 < g). { pose proof (Z.gcd_nonneg (ival num) (ival den)). 
    destruct (Z.eq_dec g 0) as [E|]; [|unfold g in *; lia]. apply Z.gcd_eq_0_r in E. congruence. }
  assert (Dn : ival num = g * Z.quot (ival num) g) by (apply quot_gcd; [apply Z.gcd_divide_l|lia]).
  assert (Dd : ival den = g * Z.quot (ival den) g) by (apply quot_gcd; [apply Z.gcd_divide_r|lia]).
  assert (Gg : Z.gcd (Z.quot (ival num) g) (Z.quot (ival den) g) = 1).
  { apply (Z.mul_cancel_l _ _ g); [lia|]. rewrite <- Z.gcd_mul_mono_l_nonneg by lia.
    rewrite <- Dn, <- Dd. unfold g. ring. }
  set (n := Z.quot (ival num) g) in *. set (d := Z.quot (ival den) g) in *.
  assert (Nzd : d <> 0) by (intros E; rewrite E in Dd; lia).
  assert (FE : (frac n d == frac (ival num) (ival den))%Q) by (apply frac_eq; auto; rewrite Dn, Dd; ring).
  assert (G : exists r, (do g0 <- int_gcd num den; do n0 <- iquotient num g0; do d0 <- iquotient den g0;
     match d0 with Fix 1 => Some (Val (RI n0)) | _ => Some (Val (RR n0 d0)) end) = Some (Val r)
     /\ rok r /\ (rq r == frac (ival num) (ival den))%Q /\ (0 < ival den -> rcanon r)).
  { destruct (int_gcd_spec num den On Od) as (g0 & -> & Og & Vg & _). fold g in Vg.
    destruct (iquotient_spec num g0 On Og ltac:(lia)) as (n0 & -> & Cn & Vn).
    destruct (iquotient_spec den g0 Od Og ltac:(lia)) as (d0 & -> & Cd & Vd).
    rewrite Vg in Vn, Vd. fold n in Vn. fold d in Vd.
    assert (D1 : d0 = Fix 1 \/ (d0 <> Fix 1 /\
      (match d0 with Fix 1 => Some (Val (RI n0)) | _ => Some (Val (RR n0 d0)) end) = Some (Val (RR n0 d0)))).
    { destruct d0 as [[|[p|p|]|p]|b]; auto; right; split; auto; discriminate. }
    destruct D1 as [->|(Nd1 & ->)].
    - exists (RI n0). cbn [ival] in Vd. pose proof (icanon_ok _ Cn). cbn [rok rq rcanon]. repeat split; auto.
      rewrite <- FE, <- Vd, frac_1, Vn. reflexivity.
    - exists (RR n0 d0). pose proof (icanon_ok _ Cn). pose proof (icanon_ok _ Cd).
      cbn [rok rq rcanon]. rewrite Vn, Vd. repeat split; auto.
      assert (d <> 1).
      { intros E. destruct d0 as [z|b]; cbn in Vd; [subst z; congruence|].
        cbn in Cd. destruct Cd as [_ Cd]. apply Cd. fx. lia. }
      nia. }
  assert (F : forall ix iy, num = Fix ix -> den = Fix iy -> exists r,
    (do g0 <- fix_gcd ix iy;
     if g0 =? 0 then None else
     let n0 := Z.quot ix g0 in
     let d0 := Z.quot iy g0 in
     if d0 =? 1 then do i <- kno_int n0; Some (Val (RI i))
     else if d0 <? 0 then do n' <- kno_int (- n0); do d' <- kno_int (- d0); Some (Val (RR n' d'))
     else do n' <- kno_int n0; do d' <- kno_int d0; Some (Val (RR n' d'))) = Some (Val r)
     /\ rok r /\ (rq r == frac (ival num) (ival den))%Q /\ (0 < ival den -> rcanon r)).
  { clear G. intros ix iy Ex Ey. rewrite fix_gcd_spec.
    assert (Ex' : ix = ival num) by (rewrite Ex; reflexivity).
    assert (Ey' : iy = ival den) by (rewrite Ey; reflexivity).
    rewrite Ex', Ey'. clear Ex' Ey'.
    fold g. fold n. fold d. destruct (Z.eqb_spec g 0); [lia|]. cbv zeta.
    assert (Bn : Z.abs n <= max_fixnum) by (rewrite Ex in *; cbn [iok ival] in *; fx; nia).
    assert (Bd : Z.abs d <= max_fixnum) by (rewrite Ey in *; cbn [iok ival] in *; fx; nia).
    unfold max_fixnum in Bn, Bd. clear Ex Ey.
    destruct (Z.eqb_spec d 1) as [E1|N1].
    { destruct (kno_int_spec n ltac:(lia)) as (i & -> & C & V). exists (RI i).
      pose proof (icanon_ok _ C). cbn [rok rq rcanon]. repeat split; auto.
      rewrite <- FE, E1, frac_1, V. reflexivity. }
    destruct (Z.ltb_spec d 0) as [L|L].
    - destruct (kno_int_spec (- n) ltac:(lia)) as (n' & -> & Cn & Vn).
      destruct (kno_int_spec (- d) ltac:(lia)) as (d' & -> & Cd & Vd).
      exists (RR n' d'). pose proof (icanon_ok _ Cn). pose proof (icanon_ok _ Cd).
      cbn [rok rq rcanon]. rewrite Vn, Vd.
      split; [auto|]. split; [split; [auto|split; [auto|lia]]|]. split; [rewrite <- FE; apply frac_eq; lia|].
      intros P. nia.
    - destruct (kno_int_spec n ltac:(lia)) as (n' & -> & Cn & Vn).
      destruct (kno_int_spec d ltac:(lia)) as (d' & -> & Cd & Vd).
      exists (RR n' d'). pose proof (icanon_ok _ Cn). pose proof (icanon_ok _ Cd).
      cbn [rok rq rcanon]. rewrite Vn, Vd.
      split; [auto|]. split; [split; [auto|split; [auto|lia]]|]. split; [exact FE|].
      intros P. repeat split; auto. lia. }
  destruct num as [ix|bx], den as [iy|b_y]; try exact G.
  - destruct iy as [|p|p]; [cbn in Nd; congruence|..]; apply F; reflexivity.
  - destruct iy; [cbn in Nd; congruence|exact G|exact G].
Qed.

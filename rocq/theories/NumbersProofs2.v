(** * Proofs about rationals, complex numbers and the arithmetic primitives. *)

From Coq Require Import ZArith List Bool Lia QArith Qfield.
From Verif Require Import SortModel BigintModel BigintProofs BigintProofs3 BigintProofs4 NumbersModel NumbersProofs.
Import ListNotations.
Open Scope Z_scope.

(** ** Arithmetic on reals *)

(** The common path: multiply out, then reduce. *)
Lemma cross_spec (f : inum -> inum -> option inum) (op : Z -> Z -> Z) x y :
  (forall a b, iok a -> iok b -> exists i, f a b = Some i /\ iok i /\ ival i = op (ival a) (ival b)) ->
  rok x -> rok y ->
  exists r,
    (do new_denom <- imultiply (denominator x) (denominator y);
     do p1 <- imultiply (numerator x) (denominator y);
     do p2 <- imultiply (numerator y) (denominator x);
     do new_num <- f p1 p2;
     make_rational new_num new_denom) = Some (Val r) /\ rok r
    /\ (rq r == frac (op (ival (numerator x) * ival (denominator y)) (ival (numerator y) * ival (denominator x)))%Z
                     (ival (denominator x) * ival (denominator y)))%Q
    /\ (rwf x -> rwf y -> rcanon r).
Proof.
  intros Hf Hx Hy.
  destruct (imultiply_spec _ _ (rok_den x Hx) (rok_den y Hy)) as (dd & -> & Od & Vd & _).
  destruct (imultiply_spec _ _ (rok_num x Hx) (rok_den y Hy)) as (p1 & -> & O1 & V1 & _).
  destruct (imultiply_spec _ _ (rok_num y Hy) (rok_den x Hx)) as (p2 & -> & O2 & V2 & _).
  destruct (Hf p1 p2 O1 O2) as (nn & -> & On & Vn).
  pose proof (rok_nz x Hx). pose proof (rok_nz y Hy).
  destruct (make_rational_spec nn dd On Od ltac:(nia)) as (r & E & Or & Q & C).
  exists r. split; [exact E|]. split; [exact Or|]. split; [rewrite Q, Vn, V1, V2, Vd; reflexivity|].
  intros Wx Wy. apply C. pose proof (rwf_pos x Wx). pose proof (rwf_pos y Wy). nia.
Qed.
Lemma real_res_of o q (c : Prop) r : o = Some (Val r) -> rok r -> (rq r == q)%Q -> (c -> rwf r) -> real_res o q c.
Proof. intros. exists r. auto. Qed.
Lemma rplus_spec x y : rok x -> rok y -> real_res (rplus x y) (rq x + rq y) (rwf x /\ rwf y).
Proof.
  intros Hx Hy.
  assert (G : real_res (do new_denom <- imultiply (denominator x) (denominator y);
     do p1 <- imultiply (numerator x) (denominator y);
     do p2 <- imultiply (numerator y) (denominator x);
     do new_num <- iplus p1 p2;
     make_rational new_num new_denom) (rq x + rq y) (rwf x /\ rwf y)).
  { destruct (cross_spec iplus Z.add x y) as (r & E & O & Q & C); auto.
    { intros a b Ha Hb. destruct (iplus_spec a b Ha Hb) as (i & E & O & V & _). eauto. }
    eapply real_res_of; eauto.
    - rewrite Q, (rq_frac x), (rq_frac y) by auto. rewrite frac_add by (apply rok_nz; auto). reflexivity.
    - intros [A B]. apply rcanon_wf. auto. }
  assert (LY : real_res (Some (Val y)) (rq (RI (Fix 0)) + rq y) (rwf (RI (Fix 0)) /\ rwf y)).
  { eapply real_res_of; eauto; [cbn [rq ival]; ring|tauto]. }
  assert (LX : real_res (Some (Val x)) (rq x + rq (RI (Fix 0))) (rwf x /\ rwf (RI (Fix 0)))).
  { eapply real_res_of; eauto; [cbn [rq ival]; ring|tauto]. }
  unfold rplus.
  destruct x as [a|n d], y as [b|n' d'].
  - clear G LX LY. destruct (iplus_spec a b Hx Hy) as (i & -> & O & V & C).
    apply (real_res_of _ _ _ (RI i)); [destruct a as [[| |]|]; reflexivity|exact O|cbn [rq]; rewrite V, inject_Z_plus; reflexivity|exact C].
  - destruct a as [[|p|p]|bb]; auto.
  - destruct b as [[|p|p]|bb]; auto.
  - exact G.
Qed.
Lemma rsubtract_spec x y : rok x -> rok y -> real_res (rsubtract x y) (rq x - rq y) (rwf x /\ rwf y).
Proof.
  intros Hx Hy.
  assert (G : real_res (do new_denom <- imultiply (denominator x) (denominator y);
     do p1 <- imultiply (numerator x) (denominator y);
     do p2 <- imultiply (numerator y) (denominator x);
     do new_num <- isubtract p1 p2;
     make_rational new_num new_denom) (rq x - rq y) (rwf x /\ rwf y)).
  { destruct (cross_spec isubtract Z.sub x y) as (r & E & O & Q & C); auto.
    { intros a b Ha Hb. destruct (isubtract_spec a b Ha Hb) as (i & E & O & V & _). eauto. }
    eapply real_res_of; eauto.
    - rewrite Q, (rq_frac x), (rq_frac y) by auto. rewrite frac_sub by (apply rok_nz; auto). reflexivity.
    - intros [A B]. apply rcanon_wf. auto. }
  unfold rsubtract.
  destruct x as [a|n d], y as [b|n' d']; try exact G.
  clear G. destruct (isubtract_spec a b Hx Hy) as (i & -> & O & V & C).
  eapply real_res_of; [reflexivity|exact O| |intros _; apply C; exact I].
  cbn [rq]. rewrite V. unfold Z.sub. rewrite inject_Z_plus, inject_Z_opp. reflexivity.
Qed.
Lemma rmultiply_spec x y : rok x -> rok y -> real_res (rmultiply x y) (rq x * rq y) (rwf x /\ rwf y).
Proof.
  intros Hx Hy.
  assert (G : real_res (do new_num <- imultiply (numerator x) (numerator y);
     do new_denom <- imultiply (denominator x) (denominator y);
     make_rational new_num new_denom) (rq x * rq y) (rwf x /\ rwf y)).
  { destruct (imultiply_spec _ _ (rok_num x Hx) (rok_num y Hy)) as (nn & -> & On & Vn & _).
    destruct (imultiply_spec _ _ (rok_den x Hx) (rok_den y Hy)) as (dd & -> & Od & Vd & _).
    pose proof (rok_nz x Hx). pose proof (rok_nz y Hy).
    destruct (make_rational_spec nn dd On Od ltac:(nia)) as (r & E & Or & Q & C).
    eapply real_res_of; eauto.
    - rewrite Q, Vn, Vd, (rq_frac x), (rq_frac y) by auto. rewrite frac_mul by auto. reflexivity.
    - intros [A B]. apply rcanon_wf. apply C. pose proof (rwf_pos x A). pose proof (rwf_pos y B). nia. }
  assert (F0 : rok (RI (Fix 0)) /\ rwf (RI (Fix 0))) by (cbn; split; fx; lia).
  assert (LY0 : real_res (Some (Val (RI (Fix 0)))) (rq (RI (Fix 0)) * rq y) (rwf (RI (Fix 0)) /\ rwf y)).
  { eapply real_res_of; eauto; [apply F0|cbn [rq ival]; ring|tauto]. }
  assert (LX0 : real_res (Some (Val (RI (Fix 0)))) (rq x * rq (RI (Fix 0))) (rwf x /\ rwf (RI (Fix 0)))).
  { eapply real_res_of; eauto; [apply F0|cbn [rq ival]; ring|tauto]. }
  assert (LY : real_res (Some (Val y)) (rq (RI (Fix 1)) * rq y) (rwf (RI (Fix 1)) /\ rwf y)).
  { eapply real_res_of; eauto; [cbn [rq ival]; change (inject_Z 1) with 1%Q; ring|tauto]. }
  assert (LX : real_res (Some (Val x)) (rq x * rq (RI (Fix 1))) (rwf x /\ rwf (RI (Fix 1)))).
  { eapply real_res_of; eauto; [cbn [rq ival]; change (inject_Z 1) with 1%Q; ring|tauto]. }
  unfold rmultiply.
  destruct x as [a|n d], y as [b|n' d'].
  - clear G LX LY LX0 LY0. destruct (imultiply_spec a b Hx Hy) as (i & -> & O & V & C).
    apply (real_res_of _ _ _ (RI i)); [destruct a as [[|[]|]|], b as [[|[]|]|]; reflexivity|exact O|cbn [rq]; rewrite V, inject_Z_mult; reflexivity|exact C].
  - destruct a as [[|[p|p|]|p]|bb]; auto.
  - destruct b as [[|[p|p|]|p]|bb]; auto.
  - exact G.
Qed.
Lemma rq_zero x : rok x -> (rq x == 0)%Q <-> ival (numerator x) = 0.
Proof.
  intros H. pose proof (rok_nz x H) as N. rewrite (rq_frac x H). split.
  - intros E. unfold frac in E. pose proof (inj_nz _ N) as N'.
    assert (E2 : (inject_Z (ival (numerator x)) == 0)%Q).
    { setoid_replace (inject_Z (ival (numerator x))) with
        (inject_Z (ival (numerator x)) / inject_Z (ival (denominator x)) * inject_Z (ival (denominator x)))%Q
        by (field; auto). rewrite E. ring. }
    unfold Qeq, inject_Z in E2. cbn in E2. lia.
  - intros E. rewrite E. unfold frac. field. apply inj_nz. auto.
Qed.
Lemma rdivide_spec x y : rok x -> rok y -> ~ (rq y == 0)%Q ->
  real_res (rdivide x y) (rq x / rq y) (rwf x /\ rwf y /\ (0 < rq y)%Q).
Proof.
  intros Hx Hy N. rewrite (rq_zero y Hy) in N.
  pose proof (rok_nz x Hx) as Nx. pose proof (rok_nz y Hy) as Ny.
  assert (POS : rwf y -> (0 < rq y)%Q -> 0 < ival (numerator y)).
  { intros W P. pose proof (rwf_pos y W). rewrite (rq_frac y Hy) in P. apply Qgt_alt in P.
    pose proof (frac_cmp (ival (numerator y)) _ Ny) as FC. rewrite P in FC. cbn [csign] in FC. nia. }
  assert (G : real_res (do new_num <- imultiply (numerator x) (denominator y);
     do new_denom <- imultiply (denominator x) (numerator y);
     make_rational new_num new_denom) (rq x / rq y) (rwf x /\ rwf y /\ (0 < rq y)%Q)).
  { destruct (imultiply_spec _ _ (rok_num x Hx) (rok_den y Hy)) as (nn & -> & On & Vn & _).
    destruct (imultiply_spec _ _ (rok_den x Hx) (rok_num y Hy)) as (dd & -> & Od & Vd & _).
    destruct (make_rational_spec nn dd On Od ltac:(nia)) as (r & E & Or & Q & C).
    eapply real_res_of; eauto.
    - rewrite Q, Vn, Vd, (rq_frac x), (rq_frac y) by auto. rewrite frac_div by auto. reflexivity.
    - intros (A & B & P). apply rcanon_wf. apply C. pose proof (rwf_pos x A). pose proof (POS B P). nia. }
  unfold rdivide. destruct x as [a|n d], y as [b|n' d']; try exact G.
  clear G. cbn [numerator] in *. destruct (make_rational_spec a b Hx Hy N) as (r & E & Or & Q & C).
  eapply real_res_of; eauto.
  intros (A & B & P). apply rcanon_wf. auto.
Qed.
(** A canonical zero divisor is reported. *)
Lemma make_rational_zero n : make_rational n (Fix 0) = Some Err.
Proof. destruct n; reflexivity. Qed.
Lemma near_zero i : inear i -> ival i = 0 -> i = Fix 0.
Proof.
  destruct i as [z|b]; cbn; [intros; subst; auto|]. intros (N & E) V. rewrite V in E.
  unfold edge in E. fx. lia.
Qed.
Lemma rdivide_zero x y : rwf x -> rwf y -> (rq y == 0)%Q -> rdivide x y = Some Err.
Proof.
  intros Wx Wy Z. apply rq_zero in Z; [|apply rwf_ok; auto].
  assert (Ey : y = RI (Fix 0)).
  { destruct y as [b|n d]; cbn in *; [f_equal; apply near_zero; auto|].
    destruct Wy as (A & B & C & D). rewrite Z, Z.gcd_0_l in D. lia. }
  subst y. unfold rdivide. destruct x as [a|n d]; [apply make_rational_zero|].
  cbn [numerator denominator] in *.
  pose proof (rwf_ok _ Wx) as Ox. cbn in Ox.
  destruct (imultiply_spec n (Fix 1)) as (nn & -> & On & Vn & _); [tauto|cbn; fx; lia|].
  assert (E : imultiply d (Fix 0) = Some (Fix 0)).
  { destruct d as [z|b]; [cbn; reflexivity|reflexivity]. }
  rewrite E. apply make_rational_zero.
Qed.

(** ** Comparison *)

Lemma rsign_spec x : rok x -> rsign x = csign (rq x ?= 0)%Q.
Proof.
  intros H. rewrite (rq_frac x H). rewrite frac_cmp by (apply rok_nz; auto).
  destruct x as [i|n d]; cbn [rsign numerator denominator ival rok] in *.
  - rewrite isign_spec by auto. cbn [Z.sgn]. lia.
  - destruct H as (A & B & C). rewrite !isign_spec by auto. reflexivity.
Qed.
Lemma compare_sub a b : (a - b ?= 0)%Q = (a ?= b)%Q.
Proof.
  destruct (Qcompare_spec a b) as [E|L|L].
  - apply Qeq_alt. rewrite E. ring.
  - apply Qlt_alt. apply Qlt_minus_iff in L. setoid_replace (a - b)%Q with (- (b + - a))%Q by ring.
    apply Qopp_lt_compat in L. exact L.
  - apply Qgt_alt. apply Qlt_minus_iff in L. exact L.
Qed.
Lemma numcompare_spec x y : rok x -> rok y -> numcompare x y = Some (csign (rq x ?= rq y)%Q).
Proof.
  intros Hx Hy.
  assert (G : (do r <- rsubtract x y; match r with Val d => Some (rsign d) | _ => Some 0 end)
     = Some (csign (rq x ?= rq y)%Q)).
  { destruct (rsubtract_spec x y Hx Hy) as (r & -> & Or & Q & _). rewrite rsign_spec by auto.
    rewrite Q, compare_sub. reflexivity. }
  unfold numcompare. destruct x as [[a|a]|n d]; try exact G. destruct y as [[b|b]|n d]; try exact G.
  cbn [rq ival]. f_equal. unfold Qcompare, inject_Z. cbn [Qnum Qden]. rewrite !Z.mul_1_r.
  destruct (Z.compare_spec a b); destruct (Z.ltb_spec b a); destruct (Z.ltb_spec a b); cbn; lia.
Qed.

(** ** Complex numbers *)

Definition nre (x : num) : Q := rq (realpart x).
Definition nim (x : num) : Q := rq (imagpart x).
Definition nok (x : num) : Prop := rok (realpart x) /\ rok (imagpart x).
(** Complex numbers have a part that is not zero. *)
Definition nwf (x : num) : Prop :=
  match x with NR r => rwf r | NC r i => rwf r /\ rwf i /\ ~ (rq i == 0)%Q end.
Definition num_res (o : option (res num)) (re im : Q) (c : Prop) : Prop :=
  exists r, o = Some (Val r) /\ nok r /\ (nre r == re)%Q /\ (nim r == im)%Q /\ (c -> nwf r).
Lemma rwf_zero : rwf (RI (Fix 0)).
Proof. cbn. fx. lia. Qed.
Lemma nwf_parts x : nwf x -> rwf (realpart x) /\ rwf (imagpart x).
Proof. destruct x; cbn [nwf realpart imagpart]; [intros; split; auto; apply rwf_zero|tauto]. Qed.
Lemma nwf_ok x : nwf x -> nok x.
Proof. intros H. apply nwf_parts in H. split; apply rwf_ok; tauto. Qed.
Lemma make_complex_spec r i : rok r -> rok i -> num_res (make_complex (Val r) (Val i)) (rq r) (rq i) (rwf r /\ rwf i).
Proof.
  intros Hr Hi. unfold make_complex. 
  rewrite numcompare_spec by (auto; cbn; fx; lia).
  change (rq (RI (Fix 0))) with 0%Q.
  destruct (Qcompare_spec (rq i) 0) as [E|L|L]; cbn [csign Z.eqb].
  - exists (NR r). unfold nok, nre, nim. cbn [realpart imagpart nwf].
    split; [reflexivity|]. split; [split; [auto|apply rwf_ok, rwf_zero]|]. split; [reflexivity|].
    split; [rewrite E; reflexivity|tauto].
  - exists (NC r i). unfold nok, nre, nim. cbn [realpart imagpart nwf].
    repeat split; auto; try tauto. intros E. rewrite E in L. discriminate L.
  - exists (NC r i). unfold nok, nre, nim. cbn [realpart imagpart nwf].
    repeat split; auto; try tauto. intros E. rewrite E in L. discriminate L.
Qed.
Lemma num_res_real o q (c : Prop) : real_res o q c -> num_res (lift o) q 0 c.
Proof.
  intros (r & -> & O & Q & C). exists (NR r). unfold nok, nre, nim. cbn [realpart imagpart nwf lift rbind].
  split; [reflexivity|]. split; [split; [auto|apply rwf_ok, rwf_zero]|]. split; [auto|]. split; [reflexivity|auto].
Qed.
Lemma num_res_q o re im re' im' (c c' : Prop) : num_res o re im c -> (re == re')%Q -> (im == im')%Q -> (c' -> c) ->
  num_res o re' im' c'.
Proof.
  intros (r & E & O & A & B & C) HA HB HC. exists r. rewrite <- HA, <- HB. tauto.
Qed.
Lemma num_res_self x re im : nok x -> (nre x == re)%Q -> (nim x == im)%Q -> num_res (Some (Val x)) re im (nwf x).
Proof. intros. exists x. auto. Qed.
Lemma kno_plus_real a b : kno_plus (NR a) (NR b) = lift (rplus a b).
Proof. destruct a as [[[| |]|]|]; reflexivity. Qed.
Lemma kno_multiply_real a b : kno_multiply (NR a) (NR b) = lift (rmultiply a b).
Proof. destruct a as [[[|[]|]|]|], b as [[[|[]|]|]|]; reflexivity. Qed.
Lemma kno_plus_spec x y : nok x -> nok y ->
  num_res (kno_plus x y) (nre x + nre y) (nim x + nim y) (nwf x /\ nwf y).
Proof.
  intros Hx Hy.
  assert (G : num_res (do re <- rplus (realpart x) (realpart y); do im <- rplus (imagpart x) (imagpart y); make_complex re im)
     (nre x + nre y) (nim x + nim y) (nwf x /\ nwf y)).
  { destruct (rplus_spec _ _ (proj1 Hx) (proj1 Hy)) as (re & -> & Or & Qr & Cr).
    destruct (rplus_spec _ _ (proj2 Hx) (proj2 Hy)) as (im & -> & Oi & Qi & Ci).
    eapply num_res_q; [apply make_complex_spec; auto|exact Qr|exact Qi|].
    intros [A B]. apply nwf_parts in A, B. tauto. }
  destruct x as [a|a a'], y as [b|b b'].
  - rewrite kno_plus_real. eapply num_res_q; [apply num_res_real, rplus_spec; [apply Hx|apply Hy]|reflexivity|reflexivity|cbn [nwf]; tauto].
  - destruct a as [[[|p|p]|bb]|n d]; try exact G.
    eapply num_res_q; [apply num_res_self; [exact Hy|reflexivity|reflexivity]|..]; try tauto;
      unfold nre, nim; cbn [realpart imagpart rq ival]; ring.
  - destruct b as [[[|p|p]|bb]|n d]; try exact G.
    eapply num_res_q; [apply num_res_self; [exact Hx|reflexivity|reflexivity]|..]; try tauto;
      unfold nre, nim; cbn [realpart imagpart rq ival]; ring.
  - exact G.
Qed.
Lemma kno_subtract_spec x y : nok x -> nok y ->
  num_res (kno_subtract x y) (nre x - nre y) (nim x - nim y) (nwf x /\ nwf y).
Proof.
  intros Hx Hy.
  assert (G : num_res (do re <- rsubtract (realpart x) (realpart y); do im <- rsubtract (imagpart x) (imagpart y); make_complex re im)
     (nre x - nre y) (nim x - nim y) (nwf x /\ nwf y)).
  { destruct (rsubtract_spec _ _ (proj1 Hx) (proj1 Hy)) as (re & -> & Or & Qr & Cr).
    destruct (rsubtract_spec _ _ (proj2 Hx) (proj2 Hy)) as (im & -> & Oi & Qi & Ci).
    eapply num_res_q; [apply make_complex_spec; auto|exact Qr|exact Qi|].
    intros [A B]. apply nwf_parts in A, B. tauto. }
  unfold kno_subtract. destruct x as [a|a a'], y as [b|b b']; try exact G.
  eapply num_res_q; [apply num_res_real, rsubtract_spec; [apply Hx|apply Hy]|reflexivity|reflexivity|cbn [nwf]; tauto].
Qed.
Lemma kno_multiply_spec x y : nok x -> nok y ->
  num_res (kno_multiply x y) (nre x * nre y - nim x * nim y) (nre x * nim y + nim x * nre y) (nwf x /\ nwf y).
Proof.
  intros Hx Hy.
  assert (G : num_res (do t1 <- rmultiply (realpart x) (realpart y);
    do t2 <- rmultiply (imagpart x) (imagpart y);
    do t3 <- rmultiply (realpart x) (imagpart y);
    do t4 <- rmultiply (imagpart x) (realpart y);
    do re <- rop rsubtract t1 t2;
    do im <- rop rplus t3 t4;
    make_complex re im) (nre x * nre y - nim x * nim y) (nre x * nim y + nim x * nre y) (nwf x /\ nwf y)).
  { destruct Hx as [Hxr Hxi]. destruct Hy as [Hyr Hyi].
    destruct (rmultiply_spec _ _ Hxr Hyr) as (t1 & -> & O1 & Q1 & C1).
    destruct (rmultiply_spec _ _ Hxi Hyi) as (t2 & -> & O2 & Q2 & C2).
    destruct (rmultiply_spec _ _ Hxr Hyi) as (t3 & -> & O3 & Q3 & C3).
    destruct (rmultiply_spec _ _ Hxi Hyr) as (t4 & -> & O4 & Q4 & C4).
    cbn [rop].
    destruct (rsubtract_spec _ _ O1 O2) as (re & -> & Or & Qr & Cr).
    destruct (rplus_spec _ _ O3 O4) as (im & -> & Oi & Qi & Ci).
    eapply num_res_q; [apply make_complex_spec; auto|..].
    - rewrite Qr, Q1, Q2. reflexivity.
    - rewrite Qi, Q3, Q4. reflexivity.
    - intros [A B]. apply nwf_parts in A, B. tauto. }
  assert (Z : num_res (Some (Val (NR (RI (Fix 0))))) 0 0 True).
  { exists (NR (RI (Fix 0))). unfold nok. cbn [realpart imagpart nwf].
    split; [reflexivity|]. split; [split; apply rwf_ok, rwf_zero|]. split; [reflexivity|].
    split; [reflexivity|]. intros _. apply rwf_zero. }
  destruct x as [a|a a'], y as [b|b b'].
  - rewrite kno_multiply_real. eapply num_res_q; [apply num_res_real, rmultiply_spec; [apply Hx|apply Hy]|..|cbn [nwf]; tauto];
      unfold nre, nim; cbn [realpart imagpart rq ival]; ring.
  - destruct a as [[[|[p|p|]|p]|bb]|n d]; try exact G.
    + eapply num_res_q; [exact Z|..]; try tauto; unfold nre, nim; cbn [realpart imagpart rq ival]; ring.
    + eapply num_res_q; [apply num_res_self; [exact Hy|reflexivity|reflexivity]|..]; try tauto;
        unfold nre, nim; cbn [realpart imagpart rq ival]; change (inject_Z 1) with 1%Q; ring.
  - destruct b as [[[|[p|p|]|p]|bb]|n d]; try exact G.
    + eapply num_res_q; [exact Z|..]; try tauto; unfold nre, nim; cbn [realpart imagpart rq ival]; ring.
    + eapply num_res_q; [apply num_res_self; [exact Hx|reflexivity|reflexivity]|..]; try tauto;
        unfold nre, nim; cbn [realpart imagpart rq ival]; change (inject_Z 1) with 1%Q; ring.
  - exact G.
Qed.
Lemma sumsq_pos c d : ~ (c == 0 /\ d == 0)%Q -> (0 < c * c + d * d)%Q.
Proof.
  intros N.
  assert (S : forall q, (0 <= q * q)%Q). { intros [n p]. unfold Qle. cbn. nia. }
  assert (P : forall q, ~ (q == 0)%Q -> (0 < q * q)%Q).
  { intros q Nq. specialize (S q). apply Qle_lteq in S as [L|E]; [exact L|]. exfalso. apply Nq.
    symmetry in E. apply Qmult_integral in E. tauto. }
  destruct (Qeq_dec c 0) as [E|E].
  - assert (Nd : ~ (d == 0)%Q) by tauto. specialize (P d Nd). rewrite E.
    setoid_replace (0 * 0 + d * d)%Q with (d * d)%Q by ring. exact P.
  - specialize (P c E). specialize (S d). apply Qlt_le_trans with (c * c + 0)%Q.
    + setoid_replace (c * c + 0)%Q with (c * c)%Q by ring. exact P.
    + apply Qplus_le_compat; [apply Qle_refl|exact S].
Qed.
Lemma kno_divide_spec x y : nok x -> nok y -> ~ (nre y == 0 /\ nim y == 0)%Q ->
  num_res (kno_divide x y)
    ((nre x * nre y + nim x * nim y) / (nre y * nre y + nim y * nim y))
    ((nim x * nre y - nre x * nim y) / (nre y * nre y + nim y * nim y))
    (nwf x /\ nwf y /\ (match y with NR r => (0 < rq r)%Q \/ exists a b, x = NC a b | NC _ _ => True end)).
Proof.
  intros Hx Hy N. pose proof (sumsq_pos _ _ N) as P.
  assert (G : num_res (let a := realpart x in let b := imagpart x in
    let c := realpart y in let d := imagpart y in
    do ac <- rmultiply a c; do ad <- rmultiply a d;
    do cb <- rmultiply c b; do bd <- rmultiply b d;
    do cc <- rmultiply c c; do dd <- rmultiply d d;
    do ccpdd <- rop rplus cc dd;
    do ac_bd <- rop rplus ac bd; do cb_ad <- rop rsubtract cb ad;
    do re <- rop rdivide ac_bd ccpdd;
    do im <- rop rdivide cb_ad ccpdd;
    make_complex re im)
    ((nre x * nre y + nim x * nim y) / (nre y * nre y + nim y * nim y))
    ((nim x * nre y - nre x * nim y) / (nre y * nre y + nim y * nim y))
    (nwf x /\ nwf y)).
  { cbv zeta. destruct Hx as [Ha Hb]. destruct Hy as [Hc Hd].
    destruct (rmultiply_spec _ _ Ha Hc) as (ac & -> & Oac & Qac & Cac).
    destruct (rmultiply_spec _ _ Ha Hd) as (ad & -> & Oad & Qad & Cad).
    destruct (rmultiply_spec _ _ Hc Hb) as (cb & -> & Ocb & Qcb & Ccb).
    destruct (rmultiply_spec _ _ Hb Hd) as (bd & -> & Obd & Qbd & Cbd).
    destruct (rmultiply_spec _ _ Hc Hc) as (cc & -> & Occ & Qcc & Ccc).
    destruct (rmultiply_spec _ _ Hd Hd) as (dd & -> & Odd & Qdd & Cdd). cbn [rop].
    destruct (rplus_spec _ _ Occ Odd) as (ss & -> & Oss & Qss & Css).
    destruct (rplus_spec _ _ Oac Obd) as (u & -> & Ou & Qu & Cu).
    destruct (rsubtract_spec _ _ Ocb Oad) as (v & -> & Ov & Qv & Cv).
    assert (Ess : (rq ss == nre y * nre y + nim y * nim y)%Q) by (rewrite Qss, Qcc, Qdd; reflexivity).
    assert (Pss : (0 < rq ss)%Q) by (rewrite Ess; exact P).
    assert (Nss : ~ (rq ss == 0)%Q) by (intros E; rewrite E in Pss; discriminate Pss).
    cbn [rop]. destruct (rdivide_spec u ss Ou Oss Nss) as (re & -> & Or & Qr & Cr).
    destruct (rdivide_spec v ss Ov Oss Nss) as (im & -> & Oi & Qi & Ci).
    eapply num_res_q; [apply make_complex_spec; auto|..].
    - rewrite Qr, Ess, Qu, Qac, Qbd. reflexivity.
    - rewrite Qi, Ess, Qv, Qcb, Qad. unfold nre, nim. field. intros E. apply Nss. rewrite Ess. exact E.
    - intros [A B]. apply nwf_parts in A, B. tauto. }
  unfold kno_divide. destruct x as [a|a a'], y as [b|b b'];
    try (eapply num_res_q; [exact G|reflexivity|reflexivity|tauto]).
  assert (Nb : ~ (rq b == 0)%Q).
  { intros E. apply N. unfold nre, nim. cbn [realpart imagpart]. split; [exact E|reflexivity]. }
  eapply num_res_q; [apply num_res_real, rdivide_spec; [apply Hx|apply Hy|exact Nb]|..].
  - unfold nre, nim. cbn [realpart imagpart rq ival]. change (inject_Z 0) with 0%Q. field. exact Nb.
  - unfold nre, nim. cbn [realpart imagpart rq ival]. change (inject_Z 0) with 0%Q. field. exact Nb.
  - cbn [nwf]. intros (A & B & [C|(? & ? & C)]); [auto|discriminate].
Qed.

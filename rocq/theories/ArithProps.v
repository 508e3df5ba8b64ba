(** * C48-C53: the arithmetic primitives of src/eval/arith.c and complex numbers.

    Same specification as in NumbersProps: integers of Z, rationals of Q. *)
From Coq Require Import ZArith List Bool Lia QArith Qround Qabs.
From Verif Require Import SortModel BigintModel BigintProofs BigintProofs3 BigintProofs4 BigintProps
  NumbersModel NumbersProofs NumbersProofs2 NumbersProofs3 NumbersProofs4 NumbersProps.
Import ListNotations.
Open Scope Z_scope.

Definition values (l : list real) : list Q := map real_value l.
Definition sum (l : list Q) : Q := fold_right Qplus 0%Q l.
Definition product (l : list Q) : Q := fold_right Qmult 1%Q l.
Lemma sum_qsum l : (sum (values l) == qsum l)%Q.
Proof.
  induction l as [|x t IH]; [reflexivity|]. unfold sum, values, qsum in *. cbn [map fold_right].
  rewrite IH, real_value_rq. reflexivity.
Qed.
Lemma product_qprod l : (product (values l) == qprod l)%Q.
Proof.
  induction l as [|x t IH]; [reflexivity|]. unfold product, values, qprod in *. cbn [map fold_right].
  rewrite IH, real_value_rq. reflexivity.
Qed.
Lemma Forall_ok l : Forall real_ok l -> Forall rok l.
Proof. apply Forall_impl. intros a. apply real_ok_rok. Qed.
Lemma Forall_nearly l : Forall real_nearly l -> Forall rwf l.
Proof. apply Forall_impl. intros a. apply real_nearly_rwf. Qed.
Lemma nearly_ok x : real_nearly x -> real_ok x.
Proof. rewrite real_nearly_rwf, real_ok_rok. apply rwf_ok. Qed.

(** ** C48: n-ary arithmetic *)

(** The magnitudes of the arguments when all are fixnums. *)
Definition fixnum_magnitudes (l : list real) : Z :=
  fold_right (fun x a => match x with RI (Fix z) => Z.abs z + a | _ => a end) 0 l.
Definition some_not_fixnum (l : list real) : Prop := Exists (fun x => match x with RI (Fix _) => False | _ => True end) l.
Lemma magnitudes_fits l : some_not_fixnum l \/ fixnum_magnitudes l < 2 ^ 63 -> fits64 l.
Proof.
  intros H zs E. apply all_fix_map in E. subst l. destruct H as [H|H].
  - exfalso. unfold some_not_fixnum in H. rewrite Exists_exists in H. destruct H as (x & I & H).
    apply in_map_iff in I. destruct I as (z & <- & _). exact H.
  - assert (EQ : fixnum_magnitudes (map (fun z => RI (Fix z)) zs) = zabs zs).
    { clear. induction zs as [|z t IH]; [reflexivity|]. unfold fixnum_magnitudes, zabs in *. cbn [map fold_right]. rewrite IH. reflexivity. }
    rewrite EQ in H. lia.
Qed.

(** Sums: exact when some argument is not a fixnum or the magnitudes of the fixnums add up
    to less than 2^63. *)
Theorem C48_plus_partial : forall l, Forall real_nearly l ->
  some_not_fixnum l \/ fixnum_magnitudes l < 2 ^ 63 ->
  exists r, plus_lexpr l = Some (Val r) /\ real_nearly r /\ (real_value r == sum (values l))%Q.
Proof.
  intros l HF HM. apply Forall_nearly in HF.
  destruct (plus_lexpr_spec l) as (r & E & O & Q & W).
  - apply (Forall_impl rok) in HF; [exact HF|]. apply rwf_ok.
  - apply magnitudes_fits; auto.
  - exists r. rewrite real_nearly_rwf, real_value_rq, sum_qsum. auto.
Qed.
Example C48_plus_case : plus_lexpr [RI (Fix (2 ^ 61 - 1)); RI (Fix (2 ^ 61 - 1)); RI (Fix (2 ^ 61 - 1)); RI (Fix (2 ^ 61 - 1))]
  = Some (Val (RI (Big (BI false [1073741820; 1073741823; 7])))) /\
  plus_lexpr [RI (Fix 1); RR (Fix 1) (Fix 2); RR (Fix 1) (Fix 3)] = Some (Val (RR (Fix 11) (Fix 6))).
Proof. split; vm_compute; reflexivity. Qed.
Print Assumptions C48_plus_partial.
(** Up to four arguments are always added exactly. *)
Theorem C48_plus_four : forall l, Forall real_nearly l -> (length l <= 4)%nat ->
  exists r, plus_lexpr l = Some (Val r) /\ real_nearly r /\ (real_value r == sum (values l))%Q.
Proof.
  intros l HF HL. apply C48_plus_partial; auto. right.
  assert (B : fixnum_magnitudes l <= (2 ^ 61 - 1) * Z.of_nat (length l)); [|lia].
  clear HL. induction HF as [|x t Hx Ht IH]; [cbn; lia|].
  unfold fixnum_magnitudes in *. cbn [fold_right length]. rewrite Nat2Z.inj_succ.
  destruct x as [[z|b]|n d]; try lia.
  apply real_nearly_rwf in Hx. cbn [rwf inear] in Hx. fx. lia.
Qed.
Example C48_plus_four_case : Forall real_nearly [RI (Fix 1); RI (Fix 2); RI (Fix 3)]
  /\ plus_lexpr [RI (Fix 1); RI (Fix 2); RI (Fix 3)] = Some (Val (RI (Fix 6))).
Proof. split; [repeat constructor|vm_compute; reflexivity]. Qed.
Print Assumptions C48_plus_four.
(** Five fixnums can overflow the long long that they are added in. *)
Theorem C48_plus_refuted : exists l, Forall real_canonical l /\ length l = 5%nat /\ plus_lexpr l = None.
Proof.
  exists (repeat (RI (Fix (2 ^ 61 - 1))) 5). split; [repeat constructor|]. split; [reflexivity|vm_compute; reflexivity].
Qed.
Print Assumptions C48_plus_refuted.

Theorem C48_minus_partial : forall x l, Forall real_nearly (x :: l) ->
  some_not_fixnum (x :: l) \/ fixnum_magnitudes (x :: l) < 2 ^ 63 ->
  exists r, minus_lexpr (x :: l) = Some (Val r) /\ real_nearly r /\
    (real_value r == match l with [] => - real_value x | _ => real_value x - sum (values l) end)%Q.
Proof.
  intros x l HF HM. apply Forall_nearly in HF.
  destruct (minus_lexpr_spec x l) as (r & E & O & Q & W).
  - apply (Forall_impl rok) in HF; [exact HF|]. apply rwf_ok.
  - apply magnitudes_fits; auto.
  - exists r. rewrite real_nearly_rwf, real_value_rq. split; [auto|]. split; [auto|]. rewrite Q.
    destruct l; [rewrite real_value_rq; reflexivity|]. rewrite sum_qsum, real_value_rq. reflexivity.
Qed.
Example C48_minus_case : minus_lexpr [RI (Fix 10); RI (Fix 2); RI (Fix 3)] = Some (Val (RI (Fix 5)))
  /\ minus_lexpr [RR (Fix 1) (Fix 2)] = Some (Val (RR (Fix (-1)) (Fix 2))).
Proof. split; vm_compute; reflexivity. Qed.
Print Assumptions C48_minus_partial.
Theorem C48_minus_refuted : exists l, Forall real_canonical l /\ length l = 6%nat /\ minus_lexpr l = None.
Proof.
  exists (RI (Fix 0) :: repeat (RI (Fix (2 ^ 61 - 1))) 5). split; [repeat constructor|]. split; [reflexivity|vm_compute; reflexivity].
Qed.
Print Assumptions C48_minus_refuted.

(** Products are exact for every list of arguments. *)
Theorem C48_times_exact : forall l, Forall real_nearly l ->
  exists r, times_lexpr l = Some (Val r) /\ real_nearly r /\ (real_value r == product (values l))%Q.
Proof.
  intros l HF. apply Forall_nearly in HF.
  destruct (times_lexpr_spec l) as (r & E & O & Q & W).
  - apply (Forall_impl rok) in HF; [exact HF|]. apply rwf_ok.
  - exists r. rewrite real_nearly_rwf, real_value_rq, product_qprod. auto.
Qed.
Example C48_times_case : times_lexpr (map (fun z => RI (Fix z)) [2 ^ 40; 2 ^ 40; - 3; 2 ^ 40])
  = Some (Val (RI (Big (BI true [0; 0; 0; 0; 3])))) /\
  times_lexpr [RI (Fix 2); RR (Fix 1) (Fix 2); RI (Fix 9)] = Some (Val (RI (Fix 9))).
Proof. split; vm_compute; reflexivity. Qed.
Print Assumptions C48_times_exact.

(** Quotients: the value is exact whatever the signs are. *)
Theorem C48_divide_exact : forall x l, Forall real_ok (x :: l) ->
  Forall (fun y => ~ (real_value y == 0)%Q) (match l with [] => [x] | _ => l end) ->
  exists r, div_lexpr (x :: l) = Some (Val r) /\ real_ok r /\
    (real_value r == match l with [] => / real_value x | _ => real_value x / product (values l) end)%Q.
Proof.
  intros x l HF HN. apply Forall_ok in HF.
  destruct (div_lexpr_spec x l HF) as (r & E & O & Q & W).
  - revert HN. apply Forall_impl. intros a. rewrite real_value_rq. auto.
  - exists r. rewrite real_ok_rok, real_value_rq. split; [auto|]. split; [auto|]. rewrite Q.
    destruct l; [rewrite real_value_rq; reflexivity|]. rewrite product_qprod, real_value_rq. reflexivity.
Qed.
Example C48_divide_case : div_lexpr [RI (Fix 1); RI (Fix (-3)); RI (Fix 5)] = Some (Val (RR (Fix (-1)) (Fix 15)))
  /\ div_lexpr [RR (Fix 2) (Fix 3)] = Some (Val (RR (Fix 3) (Fix 2))).
Proof. split; vm_compute; reflexivity. Qed.
Print Assumptions C48_divide_exact.
Theorem C48_divide_zero_partial : forall x l, Forall real_nearly (x :: l) ->
  Forall (fun y => 0 <= real_value y)%Q l -> Exists (fun y => real_value y == 0)%Q l ->
  div_lexpr (x :: l) = Some Err.
Proof.
  intros x l HF HP HE. apply Forall_nearly in HF. inversion HF as [|? ? Hx Hl]; subst.
  destruct l as [|y t]; [inversion HE|]. cbn [div_lexpr]. apply fold_div_zero; auto.
  - revert HP. apply Forall_impl. intros a. rewrite real_value_rq. auto.
  - revert HE. apply Exists_impl. intros a. rewrite real_value_rq. auto.
Qed.
Example C48_divide_zero_case : div_lexpr [RI (Fix 6); RI (Fix 2); RI (Fix 0); RI (Fix 5)] = Some Err.
Proof. vm_compute. reflexivity. Qed.
Print Assumptions C48_divide_zero_partial.
(** Without arguments the quotient reads an argument that is not there. *)
Theorem C48_divide_refuted : div_lexpr [] = None.
Proof. reflexivity. Qed.
Print Assumptions C48_divide_refuted.

Theorem C48_increments : forall x, real_nearly x ->
  (exists r, plus1 x = Some (Val r) /\ real_nearly r /\ (real_value r == real_value x + 1)%Q) /\
  (exists r, minus1 x = Some (Val r) /\ real_nearly r /\ (real_value r == real_value x - 1)%Q).
Proof.
  intros x Hx. apply real_nearly_rwf in Hx. pose proof (rwf_ok x Hx) as Ox.
  assert (W1 : rwf (RI (Fix 1)) /\ rwf (RI (Fix (-1)))) by (cbn; fx; lia). destruct W1 as [W1 Wm].
  assert (G1 : exists r, plus_lexpr [x; RI (Fix 1)] = Some (Val r) /\ real_nearly r /\ (real_value r == real_value x + 1)%Q).
  { destruct (rplus_spec x (RI (Fix 1)) Ox (rwf_ok _ W1)) as (r & E & O & Q & W). exists r.
    rewrite real_nearly_rwf, !real_value_rq. split; [exact E|]. split; [auto|]. rewrite Q. reflexivity. }
  assert (G2 : exists r, plus_lexpr [x; RI (Fix (-1))] = Some (Val r) /\ real_nearly r /\ (real_value r == real_value x - 1)%Q).
  { destruct (rplus_spec x (RI (Fix (-1))) Ox (rwf_ok _ Wm)) as (r & E & O & Q & W). exists r.
    rewrite real_nearly_rwf, !real_value_rq. split; [exact E|]. split; [auto|]. rewrite Q. reflexivity. }
  unfold plus1, minus1. destruct x as [[z|b]|n d]; [|split; assumption|split; assumption].
  cbn [rwf inear] in Hx. split.
  - destruct (real_res_int (kno_int (z + 1)) (z + 1) True) as (r & E & O & Q & W); [apply kno_int_spec; fx; lia|].
    rewrite int64_some by (fx; lia). exists r. rewrite real_nearly_rwf, real_value_rq.
    split; [exact E|]. split; [auto|]. rewrite Q. cbn [real_value int_value]. rewrite inject_Z_plus. reflexivity.
  - destruct (real_res_int (kno_int (z - 1)) (z - 1) True) as (r & E & O & Q & W); [apply kno_int_spec; fx; lia|].
    rewrite int64_some by (fx; lia). exists r. rewrite real_nearly_rwf, real_value_rq.
    split; [exact E|]. split; [auto|]. rewrite Q. cbn [real_value int_value]. unfold Z.sub. rewrite inject_Z_plus. reflexivity.
Qed.
Example C48_increments_case : plus1 (RI (Fix (2 ^ 61 - 1))) = Some (Val (RI (Big (BI false [0; 0; 2]))))
  /\ minus1 (RR (Fix 1) (Fix 2)) = Some (Val (RR (Fix (-1)) (Fix 2))).
Proof. split; vm_compute; reflexivity. Qed.
Print Assumptions C48_increments.

(** ** C49: rounding *)

Theorem C49_floor : forall x, real_nearly x ->
  exists i, floor_prim x = Some i /\ int_nearly i /\
    (inject_Z (int_value i) <= real_value x < inject_Z (int_value i + 1))%Q.
Proof.
  intros x Hx. apply real_nearly_rwf in Hx. destruct (floor_spec x Hx) as (i & E & N & V). exists i.
  rewrite int_nearly_inear, int_value_ival, V, real_value_rq. split; [auto|]. split; [auto|].
  split; [apply Qfloor_le|apply Qlt_floor].
Qed.
Example C49_floor_case : floor_prim (RR (Fix (-7)) (Fix 2)) = Some (Fix (-4)) /\ floor_prim (RR (Fix 7) (Fix 2)) = Some (Fix 3).
Proof. split; vm_compute; reflexivity. Qed.
Print Assumptions C49_floor.
Theorem C49_ceiling : forall x, real_nearly x ->
  exists i, ceiling_prim x = Some i /\ int_nearly i /\
    (inject_Z (int_value i - 1) < real_value x <= inject_Z (int_value i))%Q.
Proof.
  intros x Hx. apply real_nearly_rwf in Hx. destruct (ceiling_spec x Hx) as (i & E & N & V). exists i.
  rewrite int_nearly_inear, int_value_ival, V, real_value_rq. split; [auto|]. split; [auto|].
  split; [apply Qceiling_lt|apply Qle_ceiling].
Qed.
Example C49_ceiling_case : ceiling_prim (RR (Fix (-7)) (Fix 2)) = Some (Fix (-3)) /\ ceiling_prim (RR (Fix 7) (Fix 2)) = Some (Fix 4).
Proof. split; vm_compute; reflexivity. Qed.
Print Assumptions C49_ceiling.
(** The quotient of 4 by -2 is the unreduced -2/1: its floor and its ceiling are wrong. *)
Theorem C49_unreduced_refuted : exists x, rdivide (RI (Fix 4)) (RI (Fix (-2))) = Some (Val x) /\
  (real_value x == inject_Z (-2))%Q /\ floor_prim x = Some (Fix (-3)) /\
  exists y, rdivide (RI (Fix (-4))) (RI (Fix (-2))) = Some (Val y) /\
  (real_value y == inject_Z 2)%Q /\ ceiling_prim y = Some (Fix 3).
Proof.
  eexists. split; [vm_compute; reflexivity|]. split; [vm_compute; reflexivity|]. split; [vm_compute; reflexivity|].
  eexists. split; [vm_compute; reflexivity|]. split; vm_compute; reflexivity.
Qed.
Print Assumptions C49_unreduced_refuted.
(** Truncation: towards zero. *)
Theorem C49_truncate : forall x, real_nearly x ->
  exists i, truncate_prim x = Some i /\ int_nearly i /\
    ((0 <= real_value x /\ inject_Z (int_value i) <= real_value x < inject_Z (int_value i + 1)) \/
     (real_value x < 0 /\ inject_Z (int_value i - 1) < real_value x <= inject_Z (int_value i)))%Q.
Proof.
  intros x Hx. apply real_nearly_rwf in Hx. destruct (truncate_spec x Hx) as (i & E & N & V). exists i.
  rewrite int_nearly_inear, int_value_ival, V, real_value_rq. split; [auto|]. split; [auto|].
  destruct (Qle_bool 0 (rq x)) eqn:B.
  - left. apply Qle_bool_iff in B. split; [auto|]. split; [apply Qfloor_le|apply Qlt_floor].
  - right. split; [|split; [apply Qceiling_lt|apply Qle_ceiling]].
    apply Qnot_le_lt. intros L. apply Qle_bool_iff in L. congruence.
Qed.
Example C49_truncate_case : truncate_prim (RR (Fix (-7)) (Fix 2)) = Some (Fix (-3)) /\ truncate_prim (RR (Fix 7) (Fix 2)) = Some (Fix 3).
Proof. split; vm_compute; reflexivity. Qed.
Print Assumptions C49_truncate.
(** Rounding is right for positive rationals with an even denominator only. *)
Theorem C49_round_partial : forall n d, lowest_terms n d -> 0 <= int_value n -> Z.even (int_value d) = true ->
  exists i, round_prim (RR n d) = Some i /\ int_nearly i /\
    (Qabs (real_value (RR n d) - inject_Z (int_value i)) <= 1 # 2)%Q.
Proof.
  intros n d Hl Hn He. apply lowest_rcanon in Hl. rewrite int_value_ival in *.
  destruct (round_spec_even n d Hl Hn He) as (i & E & N & V). exists i.
  rewrite int_nearly_inear, int_value_ival, V, real_value_rq. split; [auto|]. split; [auto|].
  set (q := rq (RR n d)). pose proof (Qfloor_le (q + (1 # 2))) as L. pose proof (Qlt_floor (q + (1 # 2))) as U.
  rewrite inject_Z_plus in U. set (f := inject_Z (Qfloor (q + (1 # 2)))) in *.
  apply Qabs_Qle_condition. split.
  - apply (Qplus_le_l _ _ (f + (1 # 2))). setoid_replace (- (1 # 2) + (f + (1 # 2)))%Q with f by ring.
    setoid_replace (q - f + (f + (1 # 2)))%Q with (q + (1 # 2))%Q by ring. exact L.
  - apply Qlt_le_weak. apply (Qplus_lt_l _ _ (f + (1 # 2))). setoid_replace (q - f + (f + (1 # 2)))%Q with (q + (1 # 2))%Q by ring.
    setoid_replace ((1 # 2) + (f + (1 # 2)))%Q with (f + inject_Z 1)%Q by (change (inject_Z 1) with 1%Q; ring). exact U.
Qed.
Example C49_round_case : lowest_terms (Fix 7) (Fix 4) /\ round_prim (RR (Fix 7) (Fix 4)) = Some (Fix 2).
Proof. split; [unfold lowest_terms, int_canonical, fixnum_range; cbn; lia|vm_compute; reflexivity]. Qed.
Print Assumptions C49_round_partial.
(** A third rounds to one and minus five thirds to minus one. *)
Theorem C49_round_refuted : round_prim (RR (Fix 1) (Fix 3)) = Some (Fix 1) /\ round_prim (RR (Fix (-5)) (Fix 3)) = Some (Fix (-1)).
Proof. split; vm_compute; reflexivity. Qed.
Print Assumptions C49_round_refuted.

(** ** C50: powers *)

Theorem C50_power_partial : forall v n, real_nearly v -> ~ (real_value v == 0)%Q -> 0 <= n < 1000000 ->
  exists r, pow_prim v n = Some (Val r) /\ real_nearly r /\ (real_value r == Qpower (real_value v) n)%Q.
Proof.
  intros v n Hv N Hn. assert (Hn0 : 0 <= n) by lia. apply real_nearly_rwf in Hv. rewrite real_value_rq in N.
  destruct (pow_spec v n (rwf_ok v Hv) Hn0) as (r & E & O & Q & W).
  { intros ->. apply N. reflexivity. }
  exists r. rewrite real_nearly_rwf, !real_value_rq. auto.
Qed.
Example C50_power_case : pow_prim (RR (Fix (-2)) (Fix 3)) 5 = Some (Val (RR (Fix (-32)) (Fix 243)))
  /\ pow_prim (RI (Fix 2)) 90 = Some (Val (RI (Big (BI false [0; 0; 0; 1])))).
Proof. split; vm_compute; reflexivity. Qed.
Print Assumptions C50_power_partial.
(** Every power of zero is one. *)
Theorem C50_power_refuted : forall n, 0 <= n < 1000000 -> pow_prim (RI (Fix 0)) n = Some (Val (RI (Fix 1))).
Proof. reflexivity. Qed.
Example C50_power_refuted_case : ~ (real_value (RI (Fix 1)) == Qpower (real_value (RI (Fix 0))) 2)%Q.
Proof. intros E. discriminate E. Qed.
Print Assumptions C50_power_refuted.

(** ** C51: complex numbers *)

Definition re_value (x : num) : Q := real_value (realpart x).
Definition im_value (x : num) : Q := real_value (imagpart x).
(** Complex objects have an imaginary part that is not zero. *)
Definition num_good (x : num) : Prop :=
  match x with NR r => real_nearly r | NC r i => real_nearly r /\ real_nearly i /\ ~ (real_value i == 0)%Q end.
Lemma num_good_nwf x : num_good x <-> nwf x.
Proof. destruct x; cbn [num_good nwf]; rewrite !real_nearly_rwf, ?real_value_rq; tauto. Qed.
Definition complex_result (o : option (res num)) (re im : Q) : Prop :=
  exists r, o = Some (Val r) /\ num_good r /\ (re_value r == re)%Q /\ (im_value r == im)%Q.
Lemma complex_result_of o re im re' im' (c : Prop) : num_res o re im c -> c -> (re == re')%Q -> (im == im')%Q -> complex_result o re' im'.
Proof.
  intros (r & E & O & A & B & C) HC HA HB. exists r. rewrite num_good_nwf. unfold re_value, im_value.
  rewrite !real_value_rq. split; [auto|]. split; [auto|]. split; [rewrite <- HA; exact A|rewrite <- HB; exact B].
Qed.
Theorem C51_plus : forall x y, num_good x -> num_good y ->
  complex_result (kno_plus x y) (re_value x + re_value y) (im_value x + im_value y).
Proof.
  intros x y Hx Hy. apply num_good_nwf in Hx, Hy.
  eapply complex_result_of; [apply kno_plus_spec; apply nwf_ok; auto|auto|..];
    unfold re_value, im_value; rewrite !real_value_rq; reflexivity.
Qed.
Example C51_plus_case : kno_plus (NC (RI (Fix 1)) (RI (Fix 2))) (NC (RI (Fix 3)) (RI (Fix (-2)))) = Some (Val (NR (RI (Fix 4)))).
Proof. vm_compute. reflexivity. Qed.
Print Assumptions C51_plus.
Theorem C51_subtract : forall x y, num_good x -> num_good y ->
  complex_result (kno_subtract x y) (re_value x - re_value y) (im_value x - im_value y).
Proof.
  intros x y Hx Hy. apply num_good_nwf in Hx, Hy.
  eapply complex_result_of; [apply kno_subtract_spec; apply nwf_ok; auto|auto|..];
    unfold re_value, im_value; rewrite !real_value_rq; reflexivity.
Qed.
Example C51_subtract_case : kno_subtract (NR (RI (Fix 1))) (NC (RI (Fix 3)) (RI (Fix (-2)))) = Some (Val (NC (RI (Fix (-2))) (RI (Fix 2)))).
Proof. vm_compute. reflexivity. Qed.
Print Assumptions C51_subtract.
Theorem C51_multiply : forall x y, num_good x -> num_good y ->
  complex_result (kno_multiply x y)
    (re_value x * re_value y - im_value x * im_value y) (re_value x * im_value y + im_value x * re_value y).
Proof.
  intros x y Hx Hy. apply num_good_nwf in Hx, Hy.
  eapply complex_result_of; [apply kno_multiply_spec; apply nwf_ok; auto|auto|..];
    unfold re_value, im_value; rewrite !real_value_rq; reflexivity.
Qed.
Example C51_multiply_case : kno_multiply (NC (RI (Fix 1)) (RI (Fix 2))) (NC (RI (Fix 1)) (RI (Fix (-2)))) = Some (Val (NR (RI (Fix 5)))).
Proof. vm_compute. reflexivity. Qed.
Print Assumptions C51_multiply.
(** The quotient multiplied by the divisor is the dividend. *)
Theorem C51_divide_partial : forall x y, num_good x -> num_good y ->
  (exists re im, y = NC re im) ->
  exists re im, complex_result (kno_divide x y) re im /\
    (re * re_value y - im * im_value y == re_value x)%Q /\ (re * im_value y + im * re_value y == im_value x)%Q.
Proof.
  intros x y Hx Hy (yr & yi & ->). apply num_good_nwf in Hx, Hy. set (y := NC yr yi) in *.
  assert (N : ~ (nre y == 0 /\ nim y == 0)%Q). { intros [_ E]. cbn [nwf y] in Hy. unfold nim in E. cbn in E. tauto. }
  pose proof (sumsq_pos _ _ N) as P.
  assert (NZ : ~ (nre y * nre y + nim y * nim y == 0)%Q). { intros E. rewrite E in P. discriminate P. }
  eexists. eexists. split; [|split].
  - eapply complex_result_of; [apply kno_divide_spec; [apply nwf_ok; auto|apply nwf_ok; auto|exact N]| |reflexivity|reflexivity].
    cbn [y]. auto.
  - unfold re_value, im_value. rewrite !real_value_rq. fold (nre y) (nim y) (nre x). field. exact NZ.
  - unfold re_value, im_value. rewrite !real_value_rq. fold (nre y) (nim y) (nim x). field. exact NZ.
Qed.
Example C51_divide_case : kno_divide (NC (RI (Fix 5)) (RI (Fix 10))) (NC (RI (Fix 1)) (RI (Fix 2))) = Some (Val (NR (RI (Fix 5))))
  /\ kno_divide (NR (RI (Fix 1))) (NC (RI (Fix 1)) (RI (Fix 1))) = Some (Val (NC (RR (Fix 1) (Fix 2)) (RR (Fix (-1)) (Fix 2)))).
Proof. split; vm_compute; reflexivity. Qed.
Print Assumptions C51_divide_partial.
(** A complex number divided by zero is a complex object whose parts are error objects. *)
Theorem C51_divide_refuted : exists x, num_good x /\ kno_divide x (NR (RI (Fix 0))) = Some Junk.
Proof.
  exists (NC (RI (Fix 1)) (RI (Fix 2))). split; [|vm_compute; reflexivity].
  apply num_good_nwf. cbn [nwf rwf inear]. split; [fx; lia|]. split; [fx; lia|]. intros E. discriminate E.
Qed.
Print Assumptions C51_divide_refuted.

(** ** C52: comparison primitives *)

Fixpoint chained (R : Q -> Q -> Prop) (l : list Q) : Prop :=
  match l with x :: ((y :: _) as t) => R x y /\ chained R t | _ => True end.
Lemma chained_chain (R : Q -> Q -> Prop) x l : (forall a b c d, (a == b)%Q -> (c == d)%Q -> (R a c <-> R b d)) ->
  chained R (values (x :: l)) <-> chain R x l.
Proof.
  intros HR. revert x. induction l as [|y t IH]; intros x; [cbn; tauto|].
  specialize (IH y). cbn [values map chained chain] in *. rewrite (HR _ _ _ _ (real_value_rq x) (real_value_rq y)).
  destruct t; cbn in *; tauto.
Qed.
(** Each primitive says whether every argument is related to the next. *)
Theorem C52_comparisons : forall x l, Forall real_ok (x :: l) ->
  (exists b, lt_prim x l = Some b /\ (b = true <-> chained Qlt (values (x :: l)))) /\
  (exists b, lte_prim x l = Some b /\ (b = true <-> chained Qle (values (x :: l)))) /\
  (exists b, numeq_prim x l = Some b /\ (b = true <-> chained Qeq (values (x :: l)))) /\
  (exists b, gte_prim x l = Some b /\ (b = true <-> chained (fun a b => b <= a)%Q (values (x :: l)))) /\
  (exists b, gt_prim x l = Some b /\ (b = true <-> chained (fun a b => b < a)%Q (values (x :: l)))) /\
  (exists b, numneq_prim x l = Some b /\ (b = true <-> chained (fun a b => ~ a == b)%Q (values (x :: l)))).
Proof.
  intros x l HF. apply Forall_ok in HF. inversion HF as [|? ? Hx Hl]; subst.
  assert (G : forall test (R : Q -> Q -> Prop), (forall a b, test (csign (a ?= b)%Q) = true <-> R a b) ->
    (forall a b c d, (a == b)%Q -> (c == d)%Q -> (R a c <-> R b d)) ->
    exists b, do_compare test x l = Some b /\ (b = true <-> chained R (values (x :: l)))).
  { intros test R H1 H2. destruct (do_compare_spec test R H1 l x Hx Hl) as (b & E & S). exists b.
    split; [auto|]. rewrite chained_chain by auto. exact S. }
  split; [|split; [|split; [|split; [|split]]]]; apply G; intros a b.
  - apply lt_test.
  - intros c d E1 E2. rewrite E1, E2. reflexivity.
  - apply lte_test.
  - intros c d E1 E2. rewrite E1, E2. reflexivity.
  - apply eq_test.
  - intros c d E1 E2. rewrite E1, E2. reflexivity.
  - apply gte_test.
  - intros c d E1 E2. rewrite E1, E2. reflexivity.
  - apply gt_test.
  - intros c d E1 E2. rewrite E1, E2. reflexivity.
  - apply neq_test.
  - intros c d E1 E2. rewrite E1, E2. reflexivity.
Qed.
Example C52_comparisons_case : lt_prim (RR (Fix 1) (Fix 3)) [RR (Fix 1) (Fix 2); RI (Fix 1)] = Some true
  /\ gte_prim (RI (Fix 3)) [RI (Fix 3); RI (Fix 4)] = Some false.
Proof. split; vm_compute; reflexivity. Qed.
Print Assumptions C52_comparisons.
Theorem C52_extremes : forall x l, Forall real_ok (x :: l) ->
  (exists r, min_prim x l = Some r /\ In r (x :: l) /\ Forall (fun y => real_value r <= real_value y)%Q (x :: l)) /\
  (exists r, max_prim x l = Some r /\ In r (x :: l) /\ Forall (fun y => real_value y <= real_value r)%Q (x :: l)).
Proof.
  intros x l HF. apply Forall_ok in HF. inversion HF as [|? ? Hx Hl]; subst. split.
  - destruct (best_min_spec l Hl x Hx) as (r & E & I & F). exists r. split; [auto|]. split; [auto|].
    revert F. apply Forall_impl. intros a. rewrite !real_value_rq. auto.
  - destruct (best_max_spec l Hl x Hx) as (r & E & I & F). exists r. split; [auto|]. split; [auto|].
    revert F. apply Forall_impl. intros a. rewrite !real_value_rq. auto.
Qed.
Example C52_extremes_case : min_prim (RI (Fix 3)) [RR (Fix 1) (Fix 2); RI (Fix (-4))] = Some (RI (Fix (-4)))
  /\ max_prim (RI (Fix 3)) [RR (Fix 10) (Fix 3); RI (Fix (-4))] = Some (RR (Fix 10) (Fix 3)).
Proof. split; vm_compute; reflexivity. Qed.
Print Assumptions C52_extremes.

(** ** C53: integer functions *)

(** The modulus has the sign of the divisor. *)
Theorem C53_modulo : forall x b, int_nearly x -> int_nearly b -> int_value b <> 0 ->
  exists i k, modulo_prim x b = Some (Val i) /\ int_canonical i /\ int_value x = k * int_value b + int_value i /\
    (0 <= int_value i < int_value b \/ int_value b < int_value i <= 0).
Proof.
  intros x b Hx Hb N. apply int_nearly_inear in Hx, Hb. rewrite int_value_ival in N.
  destruct (modulo_prim_spec x b Hx Hb N) as (i & E & C & V). exists i, (ival x / ival b).
  rewrite int_canonical_icanon, !int_value_ival, V. split; [auto|]. split; [auto|]. split.
  - pose proof (Z.div_mod (ival x) (ival b) N). lia.
  - destruct (Z.lt_trichotomy (ival b) 0) as [L|[L|L]]; [right|congruence|left].
    + pose proof (Z.mod_neg_bound (ival x) (ival b) L). lia.
    + pose proof (Z.mod_pos_bound (ival x) (ival b) L). lia.
Qed.
Example C53_modulo_case : modulo_prim (Fix (-7)) (Fix 3) = Some (Val (Fix 2)) /\ modulo_prim min64 (Fix (-1000)) = Some (Val (Fix (-808))).
Proof. split; vm_compute; reflexivity. Qed.
Print Assumptions C53_modulo.
(** Zero modulo zero is zero, not an error. *)
Theorem C53_modulo_refuted : modulo_prim (Fix 0) (Fix 0) = Some (Val (Fix 0)).
Proof. reflexivity. Qed.
Print Assumptions C53_modulo_refuted.

(** The greatest common divisor divides both and is divided by every common divisor. *)
Theorem C53_gcd : forall x y, int_nearly x -> int_nearly y ->
  exists g, int_gcd x y = Some g /\ int_nearly g /\ 0 <= int_value g /\
    (int_value g | int_value x) /\ (int_value g | int_value y) /\
    forall d, (d | int_value x) -> (d | int_value y) -> (d | int_value g).
Proof.
  intros x y Hx Hy. apply int_nearly_inear in Hx, Hy.
  destruct (int_gcd_spec x y (inear_ok x Hx) (inear_ok y Hy)) as (g & E & O & V & N). exists g.
  rewrite int_nearly_inear, !int_value_ival, V. split; [auto|]. split; [auto|]. split; [apply Z.gcd_nonneg|].
  split; [apply Z.gcd_divide_l|]. split; [apply Z.gcd_divide_r|]. intros d. apply Z.gcd_greatest.
Qed.
Example C53_gcd_case : int_gcd min64 (Fix (-96)) = Some (Fix 32) /\ int_gcd (Fix 0) (Fix 0) = Some (Fix 0).
Proof. split; vm_compute; reflexivity. Qed.
Print Assumptions C53_gcd.
(** The least common multiple, when an argument is not zero. *)
Theorem C53_lcm_partial : forall x y, int_ok x -> int_ok y -> int_value x <> 0 \/ int_value y <> 0 ->
  exists i, int_lcm x y = Some (Val (RI i)) /\ int_canonical i /\ 0 <= int_value i /\
    (int_value x | int_value i) /\ (int_value y | int_value i) /\
    forall m, (int_value x | m) -> (int_value y | m) -> (int_value i | m).
Proof.
  intros x y Hx Hy N. rewrite int_ok_iok in Hx, Hy. rewrite !int_value_ival in *.
  destruct (int_lcm_spec x y Hx Hy N) as (i & E & C & V). exists i.
  rewrite int_canonical_icanon, !int_value_ival, V. split; [auto|]. split; [auto|]. split; [apply Z.lcm_nonneg|].
  split; [apply Z.divide_lcm_l|]. split; [apply Z.divide_lcm_r|]. intros m. apply Z.lcm_least.
Qed.
Example C53_lcm_case : int_lcm (Fix (-4)) (Fix 6) = Some (Val (RI (Fix 12))) /\ int_lcm (Fix 0) (Fix 6) = Some (Val (RI (Fix 0))).
Proof. split; vm_compute; reflexivity. Qed.
Print Assumptions C53_lcm_partial.
Theorem C53_lcm_refuted : int_lcm (Fix 0) (Fix 0) = Some Err.
Proof. reflexivity. Qed.
Print Assumptions C53_lcm_refuted.

Theorem C53_parity : forall x, int_ok x ->
  odd_prim x = Some (Z.odd (int_value x)) /\ even_prim x = Some (Z.even (int_value x)).
Proof. intros x H. rewrite int_ok_iok in H. rewrite int_value_ival. split; [apply odd_spec|apply even_spec]; auto. Qed.
Example C53_parity_case : odd_prim (Big (BI true [1; 0; 2])) = Some true /\ even_prim (Fix (-3)) = Some false.
Proof. split; vm_compute; reflexivity. Qed.
Print Assumptions C53_parity.
Theorem C53_absolute : forall x, real_nearly x ->
  exists r, abs_prim x = Some (Val r) /\ real_nearly r /\ (real_value r == Qabs (real_value x))%Q.
Proof.
  intros x H. apply real_nearly_rwf in H. destruct (abs_spec x H) as (r & E & W & Q). exists r.
  rewrite real_nearly_rwf, !real_value_rq. auto.
Qed.
Example C53_absolute_case : abs_prim (RR (Fix (-2)) (Fix 3)) = Some (Val (RR (Fix 2) (Fix 3))).
Proof. vm_compute. reflexivity. Qed.
Print Assumptions C53_absolute.

(** * Three properties with the limits of C21, C23-C25, C48, C49 and C51-C53 as hypotheses *)

(** Integers of any size and either representation: addition, subtraction and multiplication
    give the integer they should; quotient and remainder by a divisor that is not zero truncate,
    modulo has the sign of the divisor, gcd is the greatest common divisor, even? and odd? are right;
    nothing else than the value of an argument matters for the value of a result. *)
Theorem C73_integers : forall x y, int_nearly x -> int_nearly y ->
  (exists i, plus_int x y = an_int i /\ int_nearly i /\ int_value i = int_value x + int_value y) /\
  (exists i, subtract_int x y = an_int i /\ int_nearly i /\ int_value i = int_value x - int_value y) /\
  (exists i, multiply_int x y = an_int i /\ int_nearly i /\ int_value i = int_value x * int_value y) /\
  (int_value y <> 0 -> exists q r, quotient_prim x y = Some (Val q) /\ remainder_prim x y = Some (Val r) /\
     int_canonical q /\ int_canonical r /\ division_law (int_value x) (int_value y) (int_value q) (int_value r)) /\
  (int_value y <> 0 -> exists m k, modulo_prim x y = Some (Val m) /\ int_canonical m /\
     int_value x = k * int_value y + int_value m /\
     (0 <= int_value m < int_value y \/ int_value y < int_value m <= 0)) /\
  (exists g, int_gcd x y = Some g /\ int_nearly g /\ 0 <= int_value g /\
    (int_value g | int_value x) /\ (int_value g | int_value y) /\
    forall d, (d | int_value x) -> (d | int_value y) -> (d | int_value g)) /\
  (odd_prim x = Some (Z.odd (int_value x)) /\ even_prim x = Some (Z.even (int_value x))).
Proof.
  assert (OK : forall x, int_nearly x -> int_ok x).
  { intros x [H|[H _]]; [|exact H]. destruct x; [exact H|exact (proj1 H)]. }
  intros x y X Y. pose proof (OK x X) as Xo. pose proof (OK y Y) as Yo.
  destruct (C21_canonical_partial x y X Y) as ((i1 & E1 & N1 & _) & (i2 & E2 & N2 & _) & (i3 & E3 & N3 & _)).
  assert (J : forall (o : option (res num)) (i j : inum), o = an_int i -> o = an_int j -> i = j)
    by (intros o i j A B; rewrite A in B; injection B; auto).
  split. { destruct (C21_plus_exact x y Xo Yo) as (i & E & _ & V). exists i. rewrite (J _ _ _ E E1) in *. auto. }
  split. { destruct (C21_subtract_exact x y Xo Yo) as (i & E & _ & V). exists i. rewrite (J _ _ _ E E2) in *. auto. }
  split. { destruct (C21_multiply_exact x y Xo Yo) as (i & E & _ & V). exists i. rewrite (J _ _ _ E E3) in *. auto. }
  split; [intros Z; apply C23_primitives_law; auto|].
  split; [intros Z; apply C53_modulo; auto|]. split; [apply C53_gcd; auto|]. apply C53_parity; auto.
Qed.
Example C73_integers_case : int_nearly (Big (BI true [0; 0; 2])) /\ int_nearly (Fix (-7)) /\
  plus_int (Big (BI true [0; 0; 2])) (Fix (-7)) = an_int (Big (BI true [7; 0; 2])) /\
  modulo_prim (Big (BI true [0; 0; 2])) (Fix (-7)) = Some (Val (Fix (-2))).
Proof.
  split; [left; exact C21_canonical_unique_case|]. split; [left; unfold int_canonical, fixnum_range; lia|].
  split; vm_compute; reflexivity.
Qed.
Print Assumptions C73_integers.

(** Exact reals: expressions of sums, differences, products and quotients by what is not
    zero have the value they should; comparisons of any number of arguments, min and max,
    products and quotients of any number of arguments go by the values; so do abs,
    floor, ceiling and truncate of numbers in lowest terms. *)
Theorem C74_exact_reals :
  (forall e q, rliterals real_ok e -> qvalue e = Some q ->
     exists r, reval e = Some r /\ real_ok r /\ (real_value r == q)%Q) /\
  (forall x l, Forall real_ok (x :: l) ->
     (exists b, lt_prim x l = Some b /\ (b = true <-> chained Qlt (values (x :: l)))) /\
     (exists b, lte_prim x l = Some b /\ (b = true <-> chained Qle (values (x :: l)))) /\
     (exists b, numeq_prim x l = Some b /\ (b = true <-> chained Qeq (values (x :: l)))) /\
     (exists b, gte_prim x l = Some b /\ (b = true <-> chained (fun a b => b <= a)%Q (values (x :: l)))) /\
     (exists b, gt_prim x l = Some b /\ (b = true <-> chained (fun a b => b < a)%Q (values (x :: l)))) /\
     (exists b, numneq_prim x l = Some b /\ (b = true <-> chained (fun a b => ~ a == b)%Q (values (x :: l)))) /\
     (exists r, min_prim x l = Some r /\ In r (x :: l) /\ Forall (fun y => real_value r <= real_value y)%Q (x :: l)) /\
     (exists r, max_prim x l = Some r /\ In r (x :: l) /\ Forall (fun y => real_value y <= real_value r)%Q (x :: l))) /\
  (forall l, Forall real_nearly l ->
     exists r, times_lexpr l = Some (Val r) /\ real_nearly r /\ (real_value r == product (values l))%Q) /\
  (forall x l, Forall real_ok (x :: l) ->
     Forall (fun y => ~ (real_value y == 0)%Q) (match l with [] => [x] | _ => l end) ->
     exists r, div_lexpr (x :: l) = Some (Val r) /\ real_ok r /\
       (real_value r == match l with [] => / real_value x | _ => real_value x / product (values l) end)%Q) /\
  (forall x, real_nearly x ->
     (exists i, floor_prim x = Some i /\ int_nearly i /\ int_value i = Qfloor (real_value x)) /\
     (exists i, ceiling_prim x = Some i /\ int_nearly i /\ int_value i = Qceiling (real_value x)) /\
     (exists i, truncate_prim x = Some i /\ int_nearly i /\
        int_value i = if Qle_bool 0 (real_value x) then Qfloor (real_value x) else Qceiling (real_value x)) /\
     (exists r, abs_prim x = Some (Val r) /\ real_nearly r /\ (real_value r == Qabs (real_value x))%Q)).
Proof.
  assert (FL : forall z q, (inject_Z z <= q)%Q -> (q < inject_Z (z + 1))%Q -> z = Qfloor q).
  { intros z q A B. pose proof (Qfloor_le q) as C. pose proof (Qlt_floor q) as D.
    assert (z < Qfloor q + 1) by (rewrite Zlt_Qlt; eapply Qle_lt_trans; [exact A|exact D]).
    assert (Qfloor q < z + 1) by (rewrite Zlt_Qlt; eapply Qle_lt_trans; [exact C|exact B]). lia. }
  assert (CL : forall z q, (inject_Z (z - 1) < q)%Q -> (q <= inject_Z z)%Q -> z = Qceiling q).
  { intros z q A B. pose proof (Qle_ceiling q) as C. pose proof (Qceiling_lt q) as D.
    assert (z - 1 < Qceiling q) by (rewrite Zlt_Qlt; eapply Qlt_le_trans; [exact A|exact C]).
    assert (Qceiling q - 1 < z) by (rewrite Zlt_Qlt; eapply Qlt_le_trans; [exact D|exact B]). lia. }
  split; [exact C24_expressions_exact|]. split.
  { intros x l H. destruct (C52_comparisons x l H) as (A & B & C & D & E & F). destruct (C52_extremes x l H) as [G I].
    repeat (split; [assumption|]). assumption. }
  split; [exact C48_times_exact|]. split; [exact C48_divide_exact|].
  intros x H. split. { destruct (C49_floor x H) as (i & E & N & A & B). exists i. auto. }
  split. { destruct (C49_ceiling x H) as (i & E & N & A & B). exists i. auto. }
  split; [|apply C53_absolute; exact H].
  destruct (C49_truncate x H) as (i & E & N & [(P & A & B)|(P & A & B)]); exists i; split; auto; split; auto.
  - apply Qle_bool_iff in P. rewrite P. auto.
  - destruct (Qle_bool 0 (real_value x)) eqn:L; [|auto]. apply Qle_bool_iff in L. exfalso. apply (Qlt_not_le _ _ P L).
Qed.
Example C74_exact_reals_case :
  qvalue (RDiv (RSub (RLit (RI (Fix 1))) (RLit (RR (Fix 1) (Fix 3)))) (RLit (RI (Fix 4)))) <> None /\
  reval (RDiv (RSub (RLit (RI (Fix 1))) (RLit (RR (Fix 1) (Fix 3)))) (RLit (RI (Fix 4)))) = Some (RR (Fix 1) (Fix 6)) /\
  lt_prim (RR (Fix (-1)) (Fix 2)) [RR (Fix 1) (Fix 3); RI (Fix 1)] = Some true /\
  floor_prim (RR (Fix (-1)) (Fix 2)) = Some (Fix (-1)).
Proof. split; [vm_compute; discriminate|]. split; [vm_compute; reflexivity|]. split; vm_compute; reflexivity. Qed.
Print Assumptions C74_exact_reals.

(** Exact complex numbers: sums, differences and products have the real and imaginary
    parts they should, and are real objects when the imaginary part is zero. *)
Theorem C75_complex : forall x y, num_good x -> num_good y ->
  complex_result (kno_plus x y) (re_value x + re_value y) (im_value x + im_value y) /\
  complex_result (kno_subtract x y) (re_value x - re_value y) (im_value x - im_value y) /\
  complex_result (kno_multiply x y)
    (re_value x * re_value y - im_value x * im_value y) (re_value x * im_value y + im_value x * re_value y).
Proof.
  intros x y X Y. split; [apply C51_plus; assumption|]. split; [apply C51_subtract; assumption|].
  apply C51_multiply; assumption.
Qed.
Example C75_complex_case : num_good (NC (RI (Fix 1)) (RR (Fix 2) (Fix 3))) /\
  kno_plus (NC (RI (Fix 1)) (RR (Fix 2) (Fix 3))) (NC (RI (Fix 1)) (RR (Fix (-2)) (Fix 3))) = Some (Val (NR (RI (Fix 2)))).
Proof.
  split; [|vm_compute; reflexivity].
  split; [left; unfold int_canonical, fixnum_range; lia|]. split; [|intros E; discriminate E].
  repeat (split; [unfold int_canonical, fixnum_range; cbn; lia|]). reflexivity.
Qed.
Print Assumptions C75_complex.

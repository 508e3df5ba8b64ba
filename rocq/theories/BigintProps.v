(** * C22: the digit algorithms for big integers; C46 and C47: conversions.

    The specification is arithmetic on Z.  [value] reads a digit array in base 2^30,
    least significant digit first; [normal_form] says what arrays the code may build. *)
From Coq Require Import ZArith List Bool Lia.
From Verif Require Import SortModel BigintModel BigintProofs BigintProofs2 BigintProofs3 BigintProofs4.
Import ListNotations.
Open Scope Z_scope.

Definition magnitude (ds : list Z) : Z := fold_right (fun d v => d + 2 ^ 30 * v) 0 ds.
Definition value (b : bigint) : Z := if bneg b then - magnitude (bdig b) else magnitude (bdig b).
(** Digits below 2^30, no leading zero, one sign for zero. *)
Definition normal_form (b : bigint) : Prop :=
  Forall (fun d => 0 <= d < 2 ^ 30) (bdig b) /\
  (bdig b <> [] -> last (bdig b) 0 <> 0) /\
  (bdig b = [] -> bneg b = false).

Lemma value_bval b : value b = bval b.
Proof.
  assert (E : forall ds, magnitude ds = val ds).
  { induction ds as [|d t IH]; [reflexivity|]. unfold magnitude in *. cbn [fold_right val]. rewrite IH. reflexivity. }
  unfold value, bval. rewrite E. destruct (bneg b); lia.
Qed.
Lemma normal_norm b : normal_form b <-> norm b.
Proof.
  unfold normal_form, norm, topnz. change (2 ^ 30) with radix. split; intros (A & B & C).
  - split; [exact A|]. split; [|exact C]. destruct (bdig b) as [|d t]; [left; reflexivity|right; apply B; discriminate].
  - split; [exact A|]. split; [|exact C]. destruct B as [B|B]; [rewrite B; congruence|auto].
Qed.
Ltac conv := rewrite ?value_bval in *; repeat match goal with H : normal_form _ |- _ => apply normal_norm in H end.

(** Cases used in the examples: numbers of two and three digits. *)
Definition big1 : bigint := BI false [1073741823; 1073741823; 5].
Definition big2 : bigint := BI true [1; 7].
Lemma big1_normal : normal_form big1.
Proof. split; [repeat (constructor; [cbn; lia|]); constructor|]. split; intros; discriminate. Qed.
Lemma big2_normal : normal_form big2.
Proof. split; [repeat (constructor; [cbn; lia|]); constructor|]. split; intros; discriminate. Qed.

(** ** C22 *)

Theorem C22_add_exact : forall x y, normal_form x -> normal_form y ->
  exists r, bigint_add x y = Some r /\ normal_form r /\ value r = value x + value y.
Proof.
  intros x y Hx Hy. conv. destruct (bigint_add_spec x y Hx Hy) as (r & E & N & V).
  exists r. rewrite normal_norm, !value_bval. auto.
Qed.
Example C22_add_case : bigint_add big1 (BI false [1]) = Some (BI false [0; 0; 6]).
Proof. reflexivity. Qed.
Print Assumptions C22_add_exact.

Theorem C22_subtract_exact : forall x y, normal_form x -> normal_form y ->
  exists r, bigint_subtract x y = Some r /\ normal_form r /\ value r = value x - value y.
Proof.
  intros x y Hx Hy. conv. destruct (bigint_subtract_spec x y Hx Hy) as (r & E & N & V).
  exists r. rewrite normal_norm, !value_bval. auto.
Qed.
(** A borrow that runs through the whole array and shortens it. *)
Example C22_subtract_case : bigint_subtract (BI false [0; 0; 1]) (BI false [1]) = Some (BI false [1073741823; 1073741823]).
Proof. reflexivity. Qed.
Print Assumptions C22_subtract_exact.

Theorem C22_negate_exact : forall x, normal_form x ->
  normal_form (bigint_negate x) /\ value (bigint_negate x) = - value x.
Proof.
  intros x Hx. conv. rewrite normal_norm. apply bigint_negate_spec; auto.
Qed.
Example C22_negate_case : value (bigint_negate big2) = 7 * 2 ^ 30 + 1.
Proof. reflexivity. Qed.
Print Assumptions C22_negate_exact.

Theorem C22_multiply_exact : forall x y, normal_form x -> normal_form y ->
  exists r, bigint_multiply x y = Some r /\ normal_form r /\ value r = value x * value y.
Proof.
  intros x y Hx Hy. conv. destruct (bigint_multiply_spec x y Hx Hy) as (r & E & N & V).
  exists r. rewrite normal_norm, !value_bval. auto.
Qed.
Example C22_multiply_case : exists r, bigint_multiply big1 big2 = Some r /\ length (bdig r) = 4%nat
  /\ value r = - ((6 * 2 ^ 60 - 1) * (7 * 2 ^ 30 + 1)).
Proof. eexists. split; [vm_compute; reflexivity|]. split; reflexivity. Qed.
Print Assumptions C22_multiply_exact.

Theorem C22_compare_exact : forall x y, normal_form x -> normal_form y ->
  bigint_compare x y = Z.compare (value x) (value y).
Proof. intros x y Hx Hy. conv. apply bigint_compare_spec; auto. Qed.
Example C22_compare_case : bigint_compare big1 big2 = Gt /\ bigint_compare big2 (BI true [2; 7]) = Gt.
Proof. split; reflexivity. Qed.
Print Assumptions C22_compare_exact.

Theorem C22_equal_exact : forall x y, normal_form x -> normal_form y ->
  (bigint_equal_p x y = true <-> value x = value y).
Proof. intros x y Hx Hy. conv. apply bigint_equal_p_spec; auto. Qed.
Example C22_equal_case : bigint_equal_p big1 (BI true (bdig big1)) = false.
Proof. reflexivity. Qed.
Print Assumptions C22_equal_exact.

Theorem C22_sign_exact : forall x, normal_form x -> bigint_test x = Z.compare (value x) 0.
Proof. intros x Hx. conv. apply bigint_test_spec; auto. Qed.
Example C22_sign_case : bigint_test big2 = Lt.
Proof. reflexivity. Qed.
Print Assumptions C22_sign_exact.

(** One digit array for each integer. *)
Theorem C22_normal_form_unique : forall x y, normal_form x -> normal_form y -> value x = value y -> x = y.
Proof. intros x y Hx Hy E. conv. apply norm_inj; auto. Qed.
Example C22_normal_form_unique_case : value (BI false [5; 0]) = value (BI false [5]) /\ ~ normal_form (BI false [5; 0]).
Proof. split; [reflexivity|]. intros (_ & H & _). apply H; [discriminate|reflexivity]. Qed.
Print Assumptions C22_normal_form_unique.

(** The division law, which determines both results. *)
Definition division_law (n d q r : Z) : Prop :=
  n = q * d + r /\ Z.abs r < Z.abs d /\ (r = 0 \/ Z.sgn r = Z.sgn n).
Lemma division_law_quot n d : d <> 0 -> division_law n d (Z.quot n d) (Z.rem n d).
Proof.
  intros N. split; [|split].
  - pose proof (Z.quot_rem n d N). lia.
  - apply Z.rem_bound_abs; auto.
  - destruct (Z.eq_dec (Z.rem n d) 0) as [E0|E0]; [auto|right]. apply Z.rem_sign_nz; auto.
Qed.
Lemma division_law_unique n d q r q' r' : d <> 0 -> division_law n d q r -> division_law n d q' r' -> q = q' /\ r = r'.
Proof.
  intros N (A & B & C) (A' & B' & C').
  assert (D : r - r' = (q' - q) * d) by lia.
  assert (Z.abs (r - r') < Z.abs d).
  { destruct C as [->|C], C' as [->|C']; lia. }
  assert (q' - q = 0) by nia. split; nia.
Qed.

(** Quotient and remainder truncate towards zero. *)
Theorem C22_divide_exact : forall n d, normal_form n -> normal_form d -> value d <> 0 ->
  exists q r, bigint_divide n d = Some (Some (q, r)) /\ normal_form q /\ normal_form r
    /\ division_law (value n) (value d) (value q) (value r).
Proof.
  intros n d Hn Hd N. conv. pose proof (bigint_divide_spec n d Hn Hd) as S.
  destruct (bzero_p d) eqn:Z; [apply bval_zero in Z; congruence|].
  destruct S as (q & r & E & Nq & Nr & Vq & Vr). exists q, r. rewrite !normal_norm, !value_bval, Vq, Vr.
  split; [auto|]. split; [auto|]. split; [auto|]. apply division_law_quot; auto.
Qed.
Example C22_divide_case : exists q r, bigint_divide big1 big2 = Some (Some (q, r))
  /\ value q = - ((6 * 2 ^ 60 - 1) / (7 * 2 ^ 30 + 1)) /\ value r = (6 * 2 ^ 60 - 1) mod (7 * 2 ^ 30 + 1).
Proof. eexists. eexists. split; [vm_compute; reflexivity|]. split; reflexivity. Qed.
Print Assumptions C22_divide_exact.

Theorem C22_quotient_exact : forall n d, normal_form n -> normal_form d -> value d <> 0 ->
  exists q r, bigint_quotient n d = Some (Some q) /\ normal_form q /\ division_law (value n) (value d) (value q) r.
Proof.
  intros n d Hn Hd N. conv. pose proof (bigint_quotient_spec n d Hn Hd) as S.
  destruct (bzero_p d) eqn:Z; [apply bval_zero in Z; congruence|].
  destruct S as (q & E & Nq & Vq). exists q, (Z.rem (bval n) (bval d)). rewrite !normal_norm, !value_bval, Vq.
  split; [auto|]. split; [auto|]. apply division_law_quot; auto.
Qed.
Example C22_quotient_case : exists q, bigint_quotient big1 big2 = Some (Some q)
  /\ value q = - ((6 * 2 ^ 60 - 1) / (7 * 2 ^ 30 + 1)).
Proof. eexists. split; [vm_compute; reflexivity|reflexivity]. Qed.
Print Assumptions C22_quotient_exact.

Theorem C22_remainder_exact : forall n d, normal_form n -> normal_form d -> value d <> 0 ->
  exists q r, bigint_remainder n d = Some (Some r) /\ normal_form r /\ division_law (value n) (value d) q (value r).
Proof.
  intros n d Hn Hd N. conv. pose proof (bigint_remainder_spec n d Hn Hd) as S.
  destruct (bzero_p d) eqn:Z; [apply bval_zero in Z; congruence|].
  destruct S as (r & E & Nr & Vr). exists (Z.quot (bval n) (bval d)), r. rewrite !normal_norm, !value_bval, Vr.
  split; [auto|]. split; [auto|]. apply division_law_quot; auto.
Qed.
Example C22_remainder_case : exists r, bigint_remainder (bigint_negate big1) (BI false [1; 7]) = Some (Some r)
  /\ value r = - ((6 * 2 ^ 60 - 1) mod (7 * 2 ^ 30 + 1)).
Proof. eexists. split; [vm_compute; reflexivity|reflexivity]. Qed.
Print Assumptions C22_remainder_exact.

(** A zero divisor gives no result at all (a null pointer). *)
Theorem C22_divide_by_zero : forall n d, normal_form n -> normal_form d -> value d = 0 ->
  bigint_divide n d = Some None /\ bigint_quotient n d = Some None /\ bigint_remainder n d = Some None.
Proof.
  intros n d Hn Hd E. conv. pose proof (bigint_divide_spec n d Hn Hd) as S1.
  pose proof (bigint_quotient_spec n d Hn Hd) as S2. pose proof (bigint_remainder_spec n d Hn Hd) as S3.
  destruct (bzero_p d) eqn:Z; [auto|]. pose proof (bval_nonzero d Hd Z). destruct (bneg d); lia.
Qed.
Example C22_divide_by_zero_case : bigint_quotient big1 (BI false []) = Some None.
Proof. reflexivity. Qed.
Print Assumptions C22_divide_by_zero.

(** ** C46: machine integers *)

Theorem C46_of_long_long_partial : forall n, - 2 ^ 63 < n < 2 ^ 63 ->
  exists b, long_long_to_bigint n = Some b /\ normal_form b /\ value b = n.
Proof.
  intros n H. destruct (long_long_to_bigint_spec n) as (b & E & N & V); [lia|].
  exists b. rewrite normal_norm, value_bval. auto.
Qed.
Example C46_of_long_long_case : long_long_to_bigint (- 2 ^ 63 + 1) = Some (BI true [1073741823; 1073741823; 7]).
Proof. reflexivity. Qed.
Print Assumptions C46_of_long_long_partial.
(** The negation of the least long long overflows. *)
Theorem C46_of_long_long_refuted : exists n, - 2 ^ 63 <= n < 2 ^ 63 /\ long_long_to_bigint n = None.
Proof. exists (- 2 ^ 63). split; [lia|reflexivity]. Qed.
Print Assumptions C46_of_long_long_refuted.

Theorem C46_of_ulong_partial : forall n, 0 <= n < 2 ^ 64 - 1 ->
  normal_form (ulong_to_bigint n) /\ value (ulong_to_bigint n) = n.
Proof. intros n H. rewrite normal_norm, value_bval. apply ulong_to_bigint_spec. lia. Qed.
Example C46_of_ulong_case : ulong_to_bigint (2 ^ 63) = BI false [0; 0; 8].
Proof. reflexivity. Qed.
Print Assumptions C46_of_ulong_partial.
(** The greatest unsigned long becomes -1. *)
Theorem C46_of_ulong_refuted : exists n, 0 <= n < 2 ^ 64 /\ value (ulong_to_bigint n) <> n.
Proof. exists (2 ^ 64 - 1). split; [lia|]. cbn. discriminate. Qed.
Print Assumptions C46_of_ulong_refuted.

Theorem C46_to_long_partial : forall b, normal_form b -> - 2 ^ 63 < value b < 2 ^ 63 ->
  bigint_to_long b = Some (value b).
Proof. intros b N H. conv. apply bigint_to_long_spec; auto. lia. Qed.
Example C46_to_long_case : bigint_to_long (BI true [1; 7]) = Some (- (7 * 2 ^ 30 + 1)).
Proof. reflexivity. Qed.
Print Assumptions C46_to_long_partial.

(** The test for a word of [w] bits, which is used with 62 bits for fixnums. *)
Theorem C46_fits_exact : forall b w, normal_form b -> 1 < w ->
  exists r, fits_in_word b w true = Some r /\ (r = true <-> - 2 ^ (w - 1) < value b < 2 ^ (w - 1)).
Proof.
  intros b w N H. conv. rewrite fits_in_word_spec by auto. eexists. split; [reflexivity|].
  rewrite Z.ltb_lt. lia.
Qed.
Example C46_fits_case : fits_in_word (BI false [0; 0; 2]) 62 true = Some false
  /\ fits_in_word (BI false [1073741823; 1073741823; 1]) 62 true = Some true.
Proof. split; reflexivity. Qed.
Print Assumptions C46_fits_exact.

(** ** C47: digit streams *)

(** The integer written by [ds] in base [r], most significant digit first. *)
Definition reading (r : Z) (ds : list Z) : Z := fold_left (fun v d => v * r + d) ds 0.
Lemma reading_horner r ds : reading r ds = horner r ds 0.
Proof.
  unfold reading. generalize 0. induction ds as [|d t IH]; intros v; [reflexivity|].
  cbn [fold_left horner]. apply IH.
Qed.

Theorem C47_reading_exact : forall ds r neg, 1 < r < 2 ^ 15 -> Forall (fun d => 0 <= d < r) ds ->
  exists b, digit_stream_to_bigint ds r neg = Some (Some b) /\ normal_form b
    /\ value b = if neg then - reading r ds else reading r ds.
Proof.
  intros ds r neg Hr HF. destruct (digit_stream_to_bigint_spec ds r neg) as (b & E & N & V); auto.
  exists b. rewrite normal_norm, value_bval, reading_horner. auto.
Qed.
Example C47_reading_case : exists b, digit_stream_to_bigint (repeat 9 20) 10 true = Some (Some b)
  /\ length (bdig b) = 3%nat /\ value b = - (10 ^ 20 - 1).
Proof. eexists. split; [vm_compute; reflexivity|]. split; reflexivity. Qed.
Print Assumptions C47_reading_exact.

(** The digits come back, least significant first, without leading zeros. *)
Theorem C47_writing_exact : forall b r, normal_form b -> 1 < r < 2 ^ 15 ->
  exists t, bigint_to_digit_stream b r = Some t /\ Forall (fun d => 0 <= d < r) t
    /\ reading r (rev t) = Z.abs (value b) /\ (t = [] \/ last t 0 <> 0).
Proof.
  intros b r N Hr. conv. destruct (bigint_to_digit_stream_spec b r N Hr) as (t & E & F & V & L).
  exists t. split; [auto|]. split; [auto|]. split; [|auto]. rewrite <- V.
  unfold reading. rewrite <- fold_left_rev_right, rev_involutive. clear.
  induction t as [|d t IH]; [reflexivity|]. cbn [fold_right lsd]. rewrite IH. lia.
Qed.
Example C47_writing_case : bigint_to_digit_stream (BI true [1; 7]) 10 = Some [9; 6; 7; 2; 9; 1; 6; 1; 5; 7].
Proof. vm_compute. reflexivity. Qed.
Print Assumptions C47_writing_exact.

(** Writing a big integer and reading the digits gives it back, in every base. *)
Theorem C47_round_trip : forall b r, normal_form b -> 1 < r < 2 ^ 15 ->
  exists t, bigint_to_digit_stream b r = Some t /\ digit_stream_to_bigint (rev t) r (bneg b) = Some (Some b).
Proof.
  intros b r N Hr. destruct (C47_writing_exact b r N Hr) as (t & E & F & V & L). exists t. split; [auto|].
  destruct (C47_reading_exact (rev t) r (bneg b) Hr) as (b' & E' & N' & V'); [apply Forall_rev; auto|].
  rewrite E'. do 2 f_equal. apply C22_normal_form_unique; auto. rewrite V', V.
  conv. pose proof (bneg_ltb b N) as B. destruct (Z.ltb_spec (bval b) 0); rewrite B; lia.
Qed.
Example C47_round_trip_case : exists t, bigint_to_digit_stream big1 36 = Some t /\ length t = 13%nat
  /\ digit_stream_to_bigint (rev t) 36 false = Some (Some big1).
Proof. eexists. split; [vm_compute; reflexivity|]. split; vm_compute; reflexivity. Qed.
Print Assumptions C47_round_trip.

(** Digits: in every base from 2 to 2^15-1, a big integer is written as its digits, and any
    list of digits is read as the integer it stands for; reading what was written gives
    the integer back. *)
Theorem C76_digits : forall r, 1 < r < 2 ^ 15 ->
  (forall b, normal_form b -> exists t, bigint_to_digit_stream b r = Some t /\ Forall (fun d => 0 <= d < r) t
     /\ reading r (rev t) = Z.abs (value b) /\ (t = [] \/ last t 0 <> 0)
     /\ digit_stream_to_bigint (rev t) r (value b <? 0) = Some (Some b)) /\
  (forall ds neg, Forall (fun d => 0 <= d < r) ds ->
     exists b, digit_stream_to_bigint ds r neg = Some (Some b) /\ normal_form b
       /\ value b = if neg then - reading r ds else reading r ds).
Proof.
  intros r Hr. split.
  - intros b N. destruct (C47_writing_exact b r N Hr) as (t & E & F & V & L). exists t.
    destruct (C47_round_trip b r N Hr) as (t' & E' & R). rewrite E in E'. injection E' as <-.
    assert (B : bneg b = (value b <? 0)) by (conv; apply bneg_ltb; exact N).
    rewrite B in R.
    repeat (split; [assumption|]). exact R.
  - intros ds neg F. apply C47_reading_exact; assumption.
Qed.
Example C76_digits_case : exists t, bigint_to_digit_stream big1 10 = Some t /\ length t = 19%nat
  /\ digit_stream_to_bigint (rev t) 10 false = Some (Some big1).
Proof. eexists. split; [vm_compute; reflexivity|]. split; vm_compute; reflexivity. Qed.
Print Assumptions C76_digits.

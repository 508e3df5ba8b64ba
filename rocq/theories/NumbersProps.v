(** * C21, C23, C24, C25: exact arithmetic; C48-C53: the arithmetic primitives.

    The specification is Z and Q of the standard library: [int_value] and [real_value]
    read what the representation denotes. *)
From Coq Require Import ZArith List Bool Lia QArith Qround Qabs.
From Verif Require Import SortModel BigintModel BigintProofs BigintProofs3 BigintProofs4 BigintProps
  NumbersModel NumbersProofs NumbersProofs2 NumbersProofs3 NumbersProofs4.
Import ListNotations.
Open Scope Z_scope.

(** ** What the representations denote *)

Definition int_value (x : inum) : Z := match x with Fix z => z | Big b => value b end.
(** A fixnum has 62 bits, but its least value is not used. *)
Definition fixnum_range (z : Z) : Prop := - 2 ^ 61 < z < 2 ^ 61.
Definition int_ok (x : inum) : Prop := match x with Fix z => fixnum_range z | Big b => normal_form b end.
(** The canonical representation: a fixnum for what fits, a bigint for the rest. *)
Definition int_canonical (x : inum) : Prop :=
  match x with Fix z => fixnum_range z | Big b => normal_form b /\ ~ fixnum_range (value b) end.
(** The greatest and the least fixnum. *)
Definition extreme (z : Z) : Prop := Z.abs z = 2 ^ 61 - 1.
(** Canonical, or one of those two as a bigint. *)
Definition int_nearly (x : inum) : Prop := int_canonical x \/ (int_ok x /\ extreme (int_value x)).

Definition real_value (x : real) : Q :=
  match x with RI i => inject_Z (int_value i) | RR n d => inject_Z (int_value n) / inject_Z (int_value d) end.
(** A number object: a denominator is not zero. *)
Definition real_ok (x : real) : Prop :=
  match x with RI i => int_ok i | RR n d => int_ok n /\ int_ok d /\ int_value d <> 0 end.
(** Lowest terms, denominator above one. *)
Definition lowest_terms (n d : inum) : Prop :=
  int_canonical n /\ int_canonical d /\ 1 < int_value d /\ Z.gcd (int_value n) (int_value d) = 1.
Definition real_canonical (x : real) : Prop :=
  match x with RI i => int_canonical i | RR n d => lowest_terms n d end.
Definition real_nearly (x : real) : Prop :=
  match x with RI i => int_nearly i | RR n d => lowest_terms n d end.

Lemma int_value_ival x : int_value x = ival x.
Proof. destruct x; cbn; [reflexivity|apply value_bval]. Qed.
Lemma fixnum_range_fixr z : fixnum_range z <-> fixr z.
Proof. unfold fixnum_range. fx. lia. Qed.
Lemma int_ok_iok x : int_ok x <-> iok x.
Proof. destruct x; cbn [int_ok iok]; [apply fixnum_range_fixr|apply normal_norm]. Qed.
Lemma int_canonical_icanon x : int_canonical x <-> icanon x.
Proof.
  destruct x; cbn [int_canonical icanon]; [apply fixnum_range_fixr|]. rewrite normal_norm, fixnum_range_fixr, value_bval. tauto.
Qed.
Lemma extreme_edge z : extreme z <-> edge z.
Proof. unfold extreme, edge. fx. lia. Qed.
Lemma int_nearly_inear x : int_nearly x <-> inear x.
Proof.
  unfold int_nearly. rewrite int_canonical_icanon, int_ok_iok, extreme_edge, int_value_ival.
  destruct x as [z|b]; cbn [icanon iok inear ival]; [tauto|].
  assert (D : fixr (bval b) \/ ~ fixr (bval b)) by (fx; lia). unfold edge. split; [|tauto].
  intros [[A B]|[A B]]; [tauto|]. fx. intuition lia.
Qed.
Lemma real_value_rq x : (real_value x == rq x)%Q.
Proof. destruct x; cbn [real_value rq]; unfold frac; rewrite ?int_value_ival; reflexivity. Qed.
Lemma real_ok_rok x : real_ok x <-> rok x.
Proof. destruct x; cbn [real_ok rok]; rewrite !int_ok_iok, ?int_value_ival; tauto. Qed.
Lemma lowest_rcanon n d : lowest_terms n d <-> rcanon (RR n d).
Proof. unfold lowest_terms. cbn [rcanon]. rewrite !int_canonical_icanon, !int_value_ival. tauto. Qed.
Lemma real_canonical_rcanon x : real_canonical x <-> rcanon x.
Proof. destruct x; [apply int_canonical_icanon|apply lowest_rcanon]. Qed.
Lemma real_nearly_rwf x : real_nearly x <-> rwf x.
Proof. destruct x; [apply int_nearly_inear|apply lowest_rcanon]. Qed.

(** ** C21: integers *)

(** The integer operations seen through kno_plus, kno_subtract and kno_multiply. *)
Definition plus_int (x y : inum) := kno_plus (NR (RI x)) (NR (RI y)).
Definition subtract_int (x y : inum) := kno_subtract (NR (RI x)) (NR (RI y)).
Definition multiply_int (x y : inum) := kno_multiply (NR (RI x)) (NR (RI y)).
Definition an_int (i : inum) : option (res num) := Some (Val (NR (RI i))).
Definition min64 : inum := Big (BI true [0; 0; 8]).

Lemma plus_int_eq x y : plus_int x y = do i <- iplus x y; an_int i.
Proof.
  unfold plus_int. rewrite kno_plus_real.
  assert (E : rplus (RI x) (RI y) = do i <- iplus x y; Some (Val (RI i))) by (destruct x as [[| |]|]; reflexivity).
  rewrite E. destruct (iplus x y); reflexivity.
Qed.
Lemma subtract_int_eq x y : subtract_int x y = do i <- isubtract x y; an_int i.
Proof. unfold subtract_int, kno_subtract, rsubtract. destruct (isubtract x y); reflexivity. Qed.
Lemma multiply_int_eq x y : multiply_int x y = do i <- imultiply x y; an_int i.
Proof.
  unfold multiply_int. rewrite kno_multiply_real.
  assert (E : rmultiply (RI x) (RI y) = do i <- imultiply x y; Some (Val (RI i)))
    by (destruct x as [[|[]|]|], y as [[|[]|]|]; reflexivity).
  rewrite E. destruct (imultiply x y); reflexivity.
Qed.

Theorem C21_plus_exact : forall x y, int_ok x -> int_ok y ->
  exists i, plus_int x y = an_int i /\ int_ok i /\ int_value i = int_value x + int_value y.
Proof.
  intros x y Hx Hy. rewrite plus_int_eq. rewrite int_ok_iok in Hx, Hy.
  destruct (iplus_spec x y Hx Hy) as (i & -> & O & V & _). exists i.
  rewrite int_ok_iok, !int_value_ival. auto.
Qed.
Example C21_plus_case : plus_int (Fix (2 ^ 61 - 1)) (Fix (2 ^ 61 - 1)) = an_int (Big (BI false [1073741822; 1073741823; 3])).
Proof. vm_compute. reflexivity. Qed.
Print Assumptions C21_plus_exact.

Theorem C21_subtract_exact : forall x y, int_ok x -> int_ok y ->
  exists i, subtract_int x y = an_int i /\ int_ok i /\ int_value i = int_value x - int_value y.
Proof.
  intros x y Hx Hy. rewrite subtract_int_eq. rewrite int_ok_iok in Hx, Hy.
  destruct (isubtract_spec x y Hx Hy) as (i & -> & O & V & _). exists i.
  rewrite int_ok_iok, !int_value_ival. auto.
Qed.
(** A difference of bigints that is a fixnum again. *)
Example C21_subtract_case : subtract_int (Big (BI false [5; 0; 9])) (Big (BI false [0; 0; 9])) = an_int (Fix 5).
Proof. vm_compute. reflexivity. Qed.
Print Assumptions C21_subtract_exact.

Theorem C21_multiply_exact : forall x y, int_ok x -> int_ok y ->
  exists i, multiply_int x y = an_int i /\ int_ok i /\ int_value i = int_value x * int_value y.
Proof.
  intros x y Hx Hy. rewrite multiply_int_eq. rewrite int_ok_iok in Hx, Hy.
  destruct (imultiply_spec x y Hx Hy) as (i & -> & O & V & _). exists i.
  rewrite int_ok_iok, !int_value_ival. auto.
Qed.
Example C21_multiply_case : multiply_int (Fix (2 ^ 31)) (Fix (- 2 ^ 30)) = an_int (Big (BI true [0; 0; 2])).
Proof. vm_compute. reflexivity. Qed.
Print Assumptions C21_multiply_exact.

(** Results are canonical unless they are the greatest or the least fixnum. *)
Theorem C21_canonical_partial : forall x y, int_nearly x -> int_nearly y ->
  (exists i, plus_int x y = an_int i /\ int_nearly i /\ (~ extreme (int_value x + int_value y) -> int_canonical i)) /\
  (exists i, subtract_int x y = an_int i /\ int_nearly i /\ (~ extreme (int_value x - int_value y) -> int_canonical i)) /\
  (exists i, multiply_int x y = an_int i /\ int_nearly i /\ (~ extreme (int_value x * int_value y) -> int_canonical i)).
Proof.
  intros x y Hx Hy. rewrite plus_int_eq, subtract_int_eq, multiply_int_eq. rewrite !int_value_ival.
  apply int_nearly_inear in Hx, Hy. pose proof (inear_ok x Hx) as Ox. pose proof (inear_ok y Hy) as Oy.
  split; [|split].
  - destruct (iplus_spec x y Ox Oy) as (i & -> & O & V & C). exists i. specialize (C (conj Hx Hy)).
    rewrite int_nearly_inear, int_canonical_icanon, extreme_edge, <- V. split; [auto|]. split; [auto|]. apply inear_canon; auto.
  - destruct (isubtract_spec x y Ox Oy) as (i & -> & O & V & C). exists i. specialize (C I).
    rewrite int_nearly_inear, int_canonical_icanon, extreme_edge, <- V. split; [auto|]. split; [auto|]. apply inear_canon; auto.
  - destruct (imultiply_spec x y Ox Oy) as (i & -> & O & V & C). exists i. specialize (C (conj Hx Hy)).
    rewrite int_nearly_inear, int_canonical_icanon, extreme_edge, <- V. split; [auto|]. split; [auto|]. apply inear_canon; auto.
Qed.
Example C21_canonical_case : int_nearly (Big (BI true [0; 0; 2])) /\ plus_int (Big (BI true [0; 0; 2])) (Fix 2) = an_int (Fix (- 2 ^ 61 + 2)).
Proof.
  split; [left; split; [|unfold fixnum_range; cbn; lia]|vm_compute; reflexivity].
  split; [repeat (constructor; [cbn; lia|]); constructor|]. split; intros; discriminate.
Qed.
Print Assumptions C21_canonical_partial.

(** The sum of two fixnums that is the greatest fixnum is a bigint: it is not the same
    object as the fixnum of the same value. *)
Theorem C21_canonical_refuted : exists x y i, int_canonical x /\ int_canonical y /\
  plus_int x y = an_int i /\ ~ int_canonical i.
Proof.
  exists (Fix (2 ^ 61 - 2)), (Fix 1), (Big (BI false [1073741823; 1073741823; 1])).
  split; [unfold int_canonical, fixnum_range; lia|]. split; [unfold int_canonical, fixnum_range; lia|].
  split; [vm_compute; reflexivity|]. intros [_ H]. apply H. unfold fixnum_range. cbn. lia.
Qed.
Print Assumptions C21_canonical_refuted.

(** Canonical integers are equal objects exactly when they have the same value. *)
Theorem C21_canonical_unique : forall x y, int_canonical x -> int_canonical y -> int_value x = int_value y -> x = y.
Proof.
  intros x y Hx Hy E. destruct x as [a|a], y as [b|b]; cbn in *.
  - congruence.
  - subst a. tauto.
  - subst b. tauto.
  - f_equal. apply C22_normal_form_unique; tauto.
Qed.
Example C21_canonical_unique_case : int_canonical (Big (BI true [0; 0; 2])).
Proof.
  split; [|unfold fixnum_range; cbn; lia].
  split; [repeat (constructor; [cbn; lia|]); constructor|]. split; intros; discriminate.
Qed.
Print Assumptions C21_canonical_unique.

(** Expressions of any shape and size. *)
Inductive iexp := ILit (i : inum) | IAdd (a b : iexp) | ISub (a b : iexp) | IMul (a b : iexp).
Fixpoint ivalue (e : iexp) : Z :=
  match e with
  | ILit i => int_value i
  | IAdd a b => ivalue a + ivalue b | ISub a b => ivalue a - ivalue b | IMul a b => ivalue a * ivalue b
  end.
Fixpoint iliterals (P : inum -> Prop) (e : iexp) : Prop :=
  match e with ILit i => P i | IAdd a b | ISub a b | IMul a b => iliterals P a /\ iliterals P b end.
Definition as_int (x : option (res num)) : option inum :=
  match x with Some (Val (NR (RI i))) => Some i | _ => None end.
Fixpoint ieval (e : iexp) : option inum :=
  match e with
  | ILit i => Some i
  | IAdd a b => do x <- ieval a; do y <- ieval b; as_int (plus_int x y)
  | ISub a b => do x <- ieval a; do y <- ieval b; as_int (subtract_int x y)
  | IMul a b => do x <- ieval a; do y <- ieval b; as_int (multiply_int x y)
  end.
Theorem C21_expressions_exact : forall e, iliterals int_canonical e ->
  exists i, ieval e = Some i /\ int_nearly i /\ int_value i = ivalue e.
Proof.
  induction e as [i|a IHa b IHb|a IHa b IHb|a IHa b IHb]; cbn [iliterals ieval ivalue].
  - intros H. exists i. unfold int_nearly. auto.
  - intros [A B]. destruct (IHa A) as (x & -> & Nx & <-). destruct (IHb B) as (y & -> & Ny & <-).
    destruct (C21_canonical_partial x y Nx Ny) as ((i & E & N & _) & _ & _).
    destruct (C21_plus_exact x y) as (i' & E' & _ & V); [destruct Nx as [C|[C _]]|destruct Ny as [C|[C _]]|];
      try (rewrite int_ok_iok; rewrite int_canonical_icanon in C; apply icanon_ok in C); auto.
    rewrite E in E'. injection E' as <-. exists i. rewrite E. auto.
  - intros [A B]. destruct (IHa A) as (x & -> & Nx & <-). destruct (IHb B) as (y & -> & Ny & <-).
    destruct (C21_canonical_partial x y Nx Ny) as (_ & (i & E & N & _) & _).
    destruct (C21_subtract_exact x y) as (i' & E' & _ & V); [destruct Nx as [C|[C _]]|destruct Ny as [C|[C _]]|];
      try (rewrite int_ok_iok; rewrite int_canonical_icanon in C; apply icanon_ok in C); auto.
    rewrite E in E'. injection E' as <-. exists i. rewrite E. auto.
  - intros [A B]. destruct (IHa A) as (x & -> & Nx & <-). destruct (IHb B) as (y & -> & Ny & <-).
    destruct (C21_canonical_partial x y Nx Ny) as (_ & _ & (i & E & N & _)).
    destruct (C21_multiply_exact x y) as (i' & E' & _ & V); [destruct Nx as [C|[C _]]|destruct Ny as [C|[C _]]|];
      try (rewrite int_ok_iok; rewrite int_canonical_icanon in C; apply icanon_ok in C); auto.
    rewrite E in E'. injection E' as <-. exists i. rewrite E. auto.
Qed.
Example C21_expressions_case :
  ieval (ISub (IMul (ILit (Fix (2 ^ 60))) (ILit (Fix (2 ^ 60)))) (IMul (ILit (Fix (2 ^ 59))) (ILit (Fix (2 ^ 61 - 1)))))
  = Some (Fix (2 ^ 59)).
Proof. vm_compute. reflexivity. Qed.
Print Assumptions C21_expressions_exact.

(** ** C23: division *)

Theorem C23_division_law : forall n d, int_ok n -> int_ok d -> int_value d <> 0 ->
  exists q r, iquotient n d = Some q /\ iremainder n d = Some r /\ int_canonical q /\ int_canonical r /\
    division_law (int_value n) (int_value d) (int_value q) (int_value r).
Proof.
  intros n d Hn Hd N. rewrite int_ok_iok in Hn, Hd. rewrite !int_value_ival in *.
  destruct (iquotient_spec n d Hn Hd N) as (q & E & C & V). destruct (iremainder_spec n d Hn Hd N) as (r & E' & C' & V').
  exists q, r. rewrite !int_canonical_icanon, !int_value_ival, V, V'. repeat (split; [assumption|]).
  apply division_law_quot; auto.
Qed.
Example C23_division_case : iquotient min64 (Fix (-1)) = Some (Big (BI false [0; 0; 8])) /\ iremainder min64 (Fix 1000) = Some (Fix (-808)).
Proof. split; vm_compute; reflexivity. Qed.
Print Assumptions C23_division_law.

(** The Scheme primitives. *)
Theorem C23_primitives_law : forall n d, int_ok n -> int_ok d -> int_value d <> 0 ->
  exists q r, quotient_prim n d = Some (Val q) /\ remainder_prim n d = Some (Val r) /\
    int_canonical q /\ int_canonical r /\
    division_law (int_value n) (int_value d) (int_value q) (int_value r).
Proof.
  intros n d Hn Hd N. rewrite int_ok_iok in Hn, Hd. rewrite !int_value_ival in *.
  destruct (quotient_prim_spec n d Hn Hd N) as (q & E & C & V). destruct (remainder_prim_spec n d Hn Hd N) as (r & E' & C' & V').
  exists q, r. rewrite !int_canonical_icanon, !int_value_ival, V, V'. repeat (split; [assumption|]).
  apply division_law_quot; auto.
Qed.
Example C23_primitives_case : quotient_prim (Fix (-7)) (Fix 2) = Some (Val (Fix (-3))) /\ remainder_prim (Fix (-7)) (Fix 2) = Some (Val (Fix (-1))).
Proof. split; vm_compute; reflexivity. Qed.
Print Assumptions C23_primitives_law.

(** The quotient primitive reports a zero divisor for fixnums ... *)
Theorem C23_zero_divisor_partial : forall n, quotient_prim (Fix n) (Fix 0) = Some Err.
Proof. reflexivity. Qed.
Example C23_zero_divisor_case : fixnum_range 7 /\ quotient_prim (Fix 7) (Fix 0) = Some Err.
Proof. split; [unfold fixnum_range; lia|reflexivity]. Qed.
Print Assumptions C23_zero_divisor_partial.
(** ... but a bigint divided by zero is a null pointer that is followed, and the remainder
    primitive and the internal functions divide by zero in C. *)
Theorem C23_zero_divisor_refuted :
  (exists n, int_canonical n /\ quotient_prim n (Fix 0) = None) /\
  (exists n, int_canonical n /\ remainder_prim n (Fix 0) = None) /\
  (exists n, int_canonical n /\ iquotient n (Fix 0) = None).
Proof.
  assert (C : int_canonical min64).
  { split; [|unfold fixnum_range; cbn; lia].
    split; [repeat (constructor; [cbn; lia|]); constructor|]. split; intros; discriminate. }
  split; [exists min64; split; [exact C|vm_compute; reflexivity]|].
  split; (exists (Fix 5); split; [unfold int_canonical, fixnum_range; lia|reflexivity]).
Qed.
Print Assumptions C23_zero_divisor_refuted.

(** ** C24: rationals *)

Theorem C24_division_exact : forall n d, int_ok n -> int_ok d -> int_value d <> 0 ->
  exists r, rdivide (RI n) (RI d) = Some (Val r) /\ real_ok r
    /\ (real_value r == inject_Z (int_value n) / inject_Z (int_value d))%Q.
Proof.
  intros n d Hn Hd N. rewrite int_ok_iok in Hn, Hd. rewrite !int_value_ival in *.
  destruct (make_rational_spec n d Hn Hd N) as (r & E & O & Q & _). exists r.
  rewrite real_ok_rok, real_value_rq, Q. unfold frac. split; [exact E|]. split; [exact O|reflexivity].
Qed.
Example C24_division_case : rdivide (RI (Fix (-6))) (RI (Fix (-4))) = Some (Val (RR (Fix 3) (Fix 2))).
Proof. vm_compute. reflexivity. Qed.
Print Assumptions C24_division_exact.

(** A positive divisor gives lowest terms. *)
Theorem C24_lowest_terms_partial : forall n d, int_ok n -> int_ok d -> 0 < int_value d ->
  exists r, rdivide (RI n) (RI d) = Some (Val r) /\ real_canonical r.
Proof.
  intros n d Hn Hd N. rewrite int_ok_iok in Hn, Hd. rewrite !int_value_ival in *.
  destruct (make_rational_spec n d Hn Hd ltac:(lia)) as (r & E & O & Q & C). exists r.
  rewrite real_canonical_rcanon. auto.
Qed.
Example C24_lowest_terms_case : rdivide (RI (Fix 84)) (RI (Fix 12)) = Some (Val (RI (Fix 7)))
  /\ rdivide (RI min64) (RI (Fix 96)) = Some (Val (RR (Fix (- 2 ^ 58)) (Fix 3))).
Proof. split; vm_compute; reflexivity. Qed.
Print Assumptions C24_lowest_terms_partial.
(** A negative divisor of the numerator gives a rational with denominator one, and
    bigints keep a negative denominator. *)
Theorem C24_lowest_terms_refuted :
  rdivide (RI (Fix 4)) (RI (Fix (-2))) = Some (Val (RR (Fix (-2)) (Fix 1))) /\
  rdivide (RI (Fix 0)) (RI (Fix (-5))) = Some (Val (RR (Fix 0) (Fix 1))) /\
  exists n d, int_canonical n /\ int_canonical d /\
    rdivide (RI (Fix 3)) (RI n) = Some (Val (RR (Fix 3) d)) /\ int_value d < 0.
Proof.
  split; [vm_compute; reflexivity|]. split; [vm_compute; reflexivity|].
  assert (C : int_canonical min64).
  { split; [|unfold fixnum_range; cbn; lia].
    split; [repeat (constructor; [cbn; lia|]); constructor|]. split; intros; discriminate. }
  exists min64, min64. split; [exact C|]. split; [exact C|]. split; [vm_compute; reflexivity|reflexivity].
Qed.
Print Assumptions C24_lowest_terms_refuted.

(** Sums, differences and products of rationals in lowest terms are exact and in lowest
    terms; integers are canonical but for the extreme fixnums. *)
Theorem C24_arithmetic : forall x y, real_nearly x -> real_nearly y ->
  (exists r, rplus x y = Some (Val r) /\ real_nearly r /\ (real_value r == real_value x + real_value y)%Q) /\
  (exists r, rsubtract x y = Some (Val r) /\ real_nearly r /\ (real_value r == real_value x - real_value y)%Q) /\
  (exists r, rmultiply x y = Some (Val r) /\ real_nearly r /\ (real_value r == real_value x * real_value y)%Q) /\
  ((0 < real_value y)%Q ->
   exists r, rdivide x y = Some (Val r) /\ real_nearly r /\ (real_value r == real_value x / real_value y)%Q) /\
  ((real_value y == 0)%Q -> rdivide x y = Some Err).
Proof.
  intros x y Hx Hy. apply real_nearly_rwf in Hx, Hy.
  pose proof (rwf_ok x Hx) as Ox. pose proof (rwf_ok y Hy) as Oy.
  split; [|split; [|split; [|split]]].
  - destruct (rplus_spec x y Ox Oy) as (r & E & O & Q & W). exists r. rewrite real_nearly_rwf, !real_value_rq. auto.
  - destruct (rsubtract_spec x y Ox Oy) as (r & E & O & Q & W). exists r. rewrite real_nearly_rwf, !real_value_rq. auto.
  - destruct (rmultiply_spec x y Ox Oy) as (r & E & O & Q & W). exists r. rewrite real_nearly_rwf, !real_value_rq. auto.
  - intros P. rewrite real_value_rq in P. destruct (rdivide_spec x y Ox Oy) as (r & E & O & Q & W).
    { intros Z. rewrite Z in P. discriminate P. }
    exists r. rewrite real_nearly_rwf, !real_value_rq. split; [auto|]. split; [tauto|auto].
  - intros Z. rewrite real_value_rq in Z. apply rdivide_zero; auto.
Qed.
Example C24_arithmetic_case :
  rplus (RR (Fix 1) (Fix 6)) (RR (Fix 1) (Fix 3)) = Some (Val (RR (Fix 1) (Fix 2))) /\
  rmultiply (RR (Fix 2) (Fix 3)) (RR (Fix 3) (Fix 2)) = Some (Val (RI (Fix 1))) /\
  rsubtract (RR (Fix 2) (Fix 3)) (RI (Fix 1)) = Some (Val (RR (Fix (-1)) (Fix 3))).
Proof. repeat split; vm_compute; reflexivity. Qed.
Print Assumptions C24_arithmetic.

(** Expressions with division: the value is exact whatever the signs are, when no divisor
    is zero. *)
Inductive rexp := RLit (x : real) | RAdd (a b : rexp) | RSub (a b : rexp) | RMul (a b : rexp) | RDiv (a b : rexp).
Fixpoint qvalue (e : rexp) : option Q :=
  match e with
  | RLit x => Some (real_value x)
  | RAdd a b => do p <- qvalue a; do q <- qvalue b; Some (p + q)%Q
  | RSub a b => do p <- qvalue a; do q <- qvalue b; Some (p - q)%Q
  | RMul a b => do p <- qvalue a; do q <- qvalue b; Some (p * q)%Q
  | RDiv a b => do p <- qvalue a; do q <- qvalue b; if Qeq_bool q 0 then None else Some (p / q)%Q
  end.
Fixpoint rliterals (P : real -> Prop) (e : rexp) : Prop :=
  match e with RLit x => P x | RAdd a b | RSub a b | RMul a b | RDiv a b => rliterals P a /\ rliterals P b end.
Definition as_real (x : option (res real)) : option real := match x with Some (Val r) => Some r | _ => None end.
Fixpoint reval (e : rexp) : option real :=
  match e with
  | RLit x => Some x
  | RAdd a b => do x <- reval a; do y <- reval b; as_real (rplus x y)
  | RSub a b => do x <- reval a; do y <- reval b; as_real (rsubtract x y)
  | RMul a b => do x <- reval a; do y <- reval b; as_real (rmultiply x y)
  | RDiv a b => do x <- reval a; do y <- reval b; as_real (rdivide x y)
  end.
Theorem C24_expressions_exact : forall e q, rliterals real_ok e -> qvalue e = Some q ->
  exists r, reval e = Some r /\ real_ok r /\ (real_value r == q)%Q.
Proof.
  assert (L2 : forall (A B C : Type) (x : option A) (y : option B) (f : A -> B -> option C) c,
    (do a <- x; do b <- y; f a b) = Some c -> exists a b, x = Some a /\ y = Some b /\ f a b = Some c).
  { intros A B C [a|] [b|] f c H; try discriminate. eauto. }
  induction e as [x|a IHa b IHb|a IHa b IHb|a IHa b IHb|a IHa b IHb]; cbn [rliterals reval qvalue]; intros q HL HQ.
  - injection HQ as <-. exists x. split; [auto|]. split; [auto|reflexivity].
  - apply L2 in HQ as (p & p' & Ea & Eb & HQ). injection HQ as <-.
    destruct (IHa p (proj1 HL) Ea) as (x & -> & Ox & Vx). destruct (IHb p' (proj2 HL) Eb) as (y & -> & Oy & Vy).
    apply real_ok_rok in Ox, Oy. destruct (rplus_spec x y Ox Oy) as (r & -> & O & Q & _).
    exists r. split; [reflexivity|]. rewrite real_ok_rok. split; [auto|]. rewrite real_value_rq, Q, <- Vx, <- Vy, !real_value_rq. reflexivity.
  - apply L2 in HQ as (p & p' & Ea & Eb & HQ). injection HQ as <-.
    destruct (IHa p (proj1 HL) Ea) as (x & -> & Ox & Vx). destruct (IHb p' (proj2 HL) Eb) as (y & -> & Oy & Vy).
    apply real_ok_rok in Ox, Oy. destruct (rsubtract_spec x y Ox Oy) as (r & -> & O & Q & _).
    exists r. split; [reflexivity|]. rewrite real_ok_rok. split; [auto|]. rewrite real_value_rq, Q, <- Vx, <- Vy, !real_value_rq. reflexivity.
  - apply L2 in HQ as (p & p' & Ea & Eb & HQ). injection HQ as <-.
    destruct (IHa p (proj1 HL) Ea) as (x & -> & Ox & Vx). destruct (IHb p' (proj2 HL) Eb) as (y & -> & Oy & Vy).
    apply real_ok_rok in Ox, Oy. destruct (rmultiply_spec x y Ox Oy) as (r & -> & O & Q & _).
    exists r. split; [reflexivity|]. rewrite real_ok_rok. split; [auto|]. rewrite real_value_rq, Q, <- Vx, <- Vy, !real_value_rq. reflexivity.
  - apply L2 in HQ as (p & p' & Ea & Eb & HQ). destruct (Qeq_bool p' 0) eqn:Z; [discriminate|]. injection HQ as <-.
    destruct (IHa p (proj1 HL) Ea) as (x & -> & Ox & Vx). destruct (IHb p' (proj2 HL) Eb) as (y & -> & Oy & Vy).
    apply real_ok_rok in Ox, Oy. apply Qeq_bool_neq in Z.
    destruct (rdivide_spec x y Ox Oy) as (r & -> & O & Q & _).
    { rewrite <- real_value_rq, Vy. exact Z. }
    exists r. split; [reflexivity|]. rewrite real_ok_rok. split; [auto|]. rewrite real_value_rq, Q, <- Vx, <- Vy, !real_value_rq. reflexivity.
Qed.
Example C24_expressions_case :
  reval (RDiv (RSub (RLit (RR (Fix 1) (Fix 2))) (RLit (RI (Fix 3)))) (RAdd (RLit (RR (Fix 1) (Fix 7))) (RLit (RI (Fix (-1))))))
  = Some (RR (Fix 35) (Fix 12)).
Proof. vm_compute. reflexivity. Qed.
Print Assumptions C24_expressions_exact.

(** ** C25: comparison *)

Theorem C25_numcompare_exact : forall x y, real_ok x -> real_ok y ->
  exists c, numcompare x y = Some c /\
    ((c = -1 /\ (real_value x < real_value y)%Q) \/
     (c = 0 /\ (real_value x == real_value y)%Q) \/
     (c = 1 /\ (real_value y < real_value x)%Q)).
Proof.
  intros x y Hx Hy. apply real_ok_rok in Hx, Hy. rewrite numcompare_spec by auto. eexists. split; [reflexivity|].
  rewrite !real_value_rq. destruct (Qcompare_spec (rq x) (rq y)); cbn [csign]; auto.
Qed.
Example C25_numcompare_case : numcompare (RR (Fix 1) (Fix 3)) (RR (Fix 2) (Fix 5)) = Some (-1)
  /\ numcompare (RI min64) (RR (Fix (-1)) (Fix 3)) = Some (-1)
  /\ numcompare (RI (Fix (2 ^ 61 - 1))) (RI (Big (BI false [1073741823; 1073741823; 1]))) = Some 0.
Proof. repeat split; vm_compute; reflexivity. Qed.
Print Assumptions C25_numcompare_exact.

(** A real compared with a complex number that is not real counts as equal: the test for
    complex arguments looks at the first argument twice. *)
Theorem C25_complex_refuted : exists x re im, real_canonical x /\ real_canonical re /\ real_canonical im /\
  ~ (real_value im == 0)%Q /\ numcompare_complex x re im = Some 0.
Proof.
  exists (RI (Fix 1)), (RI (Fix 5)), (RI (Fix 2)).
  assert (F : forall z, fixnum_range z -> real_canonical (RI (Fix z))) by (intros; exact H).
  split; [apply F; unfold fixnum_range; lia|]. split; [apply F; unfold fixnum_range; lia|].
  split; [apply F; unfold fixnum_range; lia|]. split; [intros E; discriminate E|vm_compute; reflexivity].
Qed.
Print Assumptions C25_complex_refuted.

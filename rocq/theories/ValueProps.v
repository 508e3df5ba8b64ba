(** * C13: the internal ordering of values. *)
From Verif Require Import ValueModel ValueProofs.
From Coq Require Import SpecFloat Lia.
Local Open Scope N_scope.

(** The values covered: [vok] (ValueProofs.v) asks that strings contain no NUL
    byte and that heap numbers are exact (bigints, rationals in lowest terms); it
    holds at every depth of pairs, vectors, choices and compounds.  What happens
    outside of it is stated by the refutations below. *)

Theorem C13_total_order_partial : forall x y z,
  vok x = true -> vok y = true -> vok z = true ->
  (cons_compare x y = Eq <-> x = y)
  /\ cons_compare y x = CompOpp (cons_compare x y)
  /\ (cons_compare x y = Lt -> cons_compare y z = Lt -> cons_compare x z = Lt).
Proof.
  intros x y z Hx Hy Hz. rewrite !cons_compare_q.
  split; [now apply qcompare_eq|]. split; [now apply qcompare_opp|now apply qcompare_trans].
Qed.

(** The three C implementations of the comparison agree on all values. *)
Theorem C13_three_comparisons_agree : forall x y,
  cons_compare x y = qcompare x y /\ base_compare x y = qcompare x y.
Proof. intros. split; [apply cons_compare_q|apply base_compare_q]. Qed.

(** Atoms come before numbers, numbers before everything else. *)
Theorem C13_atoms_first : forall x y,
  (atomicp x = true -> atomicp y = false -> qcompare x y = Lt) /\
  (numberp x = true -> atomicp y = false -> numberp y = false -> qcompare x y = Lt).
Proof. intros x y. destruct x, y; cbn; split; try discriminate; try reflexivity. Qed.

(** lispval_equal (equal?) agrees with the ordering on values without secrets and
    compounds. *)
Theorem C13_equal_agrees_partial : forall x y,
  vok x = true -> vok y = true -> plain x = true -> plain y = true ->
  (lequal x y = true <-> qcompare x y = Eq).
Proof.
  intros x y Hx Hy Px Py. rewrite (lequal_spec x y Hx Hy Px Py).
  symmetry. now apply qcompare_eq.
Qed.

(** A value of every kind that satisfies the hypotheses. *)
Definition ex_val : val :=
  VPair (VStr [104; 105])
    (VVec [VAtom 7; VNum (NReal (RInt (2^70))); VNum (NReal (RRat (-3) 4));
           VPacket true [0; 1]; VChoice [VAtom 1; VAtom 5]; VQChoice [VStr [97]; VStr [98]];
           VCompound (VAtom 9) [VOther 0x94 4096]]).
Example C13_ex : vok ex_val = true /\ cons_compare ex_val ex_val = Eq
  /\ cons_compare (VNum (NReal (RRat (-3) 4))) (VNum (NReal (RRat (-2) 3))) = Lt
  /\ cons_compare (VPair (VAtom 1) (VStr [97])) (VPair (VAtom 1) (VStr [98])) = Lt.
Proof. vm_compute. auto. Qed.

(** ** Flonums *)

(** The double as it is in memory: valid_binary says that the exponent is the one of the
    canonical form. *)
Definition is_double (f : spec_float) : Prop := valid_binary 53 1024 f = true /\ f <> S754_nan.
(** The number it stands for, times 2^1074; the infinities are put outside of the others. *)
Definition times_2_1074 (f : spec_float) : Z :=
  match f with
  | S754_zero _ | S754_nan => 0
  | S754_infinity s => if s then - 2 ^ 2100 else 2 ^ 2100
  | S754_finite s m e => (if s then - Zpos m else Zpos m) * 2 ^ (e + 1074)
  end.

Lemma digits_bounds m : (2 ^ Zpos (digits2_pos m) <= 2 * Zpos m < 2 * 2 ^ Zpos (digits2_pos m))%Z.
Proof.
  induction m as [m IH|m IH|]; cbn [digits2_pos].
  - rewrite Pos2Z.inj_succ, Z.pow_succ_r by lia. lia.
  - rewrite Pos2Z.inj_succ, Z.pow_succ_r by lia. lia.
  - cbn. lia.
Qed.
Lemma valid_bounds s m e : valid_binary 53 1024 (S754_finite s m e) = true ->
  (Zpos m < 2 ^ 53 /\ -1074 <= e <= 971 /\ (e = -1074 \/ 2 ^ 52 <= Zpos m))%Z.
Proof.
  cbn [valid_binary]. unfold bounded, canonical_mantissa, fexp, emin. intros H.
  apply andb_prop in H. destruct H as [H1 H2]. apply Zeq_bool_eq in H1. apply Z.leb_le in H2.
  change (3 - 1024 - 53)%Z with (-1074)%Z in H1. pose proof (digits_bounds m) as D.
  set (d := Zpos (digits2_pos m)) in *. assert (Hd : (0 < d)%Z) by (unfold d; lia).
  assert (d <= 53)%Z by lia.
  assert (2 ^ d <= 2 ^ 53)%Z by (apply Z.pow_le_mono_r; lia).
  split; [lia|]. split; [lia|].
  destruct (Z.eq_dec e (-1074)) as [E|E]; [left; exact E|right].
  assert (d = 53)%Z by lia. rewrite H3 in D. change (2 ^ 53)%Z with (2 * 2 ^ 52)%Z in D. lia.
Qed.
Lemma mant_lt m m' e e' : (Zpos m < 2 ^ 53 -> 2 ^ 52 <= Zpos m' -> -1074 <= e -> e < e' ->
  Zpos m * 2 ^ (e + 1074) < Zpos m' * 2 ^ (e' + 1074))%Z.
Proof.
  intros A B C D. replace (e' + 1074)%Z with ((e' - e - 1) + 1 + (e + 1074))%Z by lia.
  rewrite (Z.pow_add_r 2 (e' - e - 1 + 1)), (Z.pow_add_r 2 (e' - e - 1)) by lia.
  assert (P : (0 < 2 ^ (e + 1074))%Z) by (apply Z.pow_pos_nonneg; lia).
  assert (Q : (1 <= 2 ^ (e' - e - 1))%Z) by (apply (Z.pow_le_mono_r 2 0); lia).
  set (p := (2 ^ (e + 1074))%Z) in *. set (q := (2 ^ (e' - e - 1))%Z) in *.
  change (2 ^ 53)%Z with (2 * 2 ^ 52)%Z in A. set (t := (2 ^ 52)%Z) in *. change (2 ^ 1)%Z with 2%Z.
  assert (X1 : (Zpos m * p < 2 * Zpos m' * p)%Z) by (apply Z.mul_lt_mono_pos_r; lia).
  assert (X2 : (2 * Zpos m' * p * 1 <= 2 * Zpos m' * p * q)%Z) by (apply Z.mul_le_mono_nonneg_l; [|lia]; apply Z.mul_nonneg_nonneg; lia).
  replace (Zpos m' * (q * 2 * p))%Z with (2 * Zpos m' * p * q)%Z by ring. lia.
Qed.
Lemma mag_compare s s' m m' e e' : valid_binary 53 1024 (S754_finite s m e) = true ->
  valid_binary 53 1024 (S754_finite s' m' e') = true ->
  (match Z.compare e e' with Lt => Lt | Gt => Gt | Eq => Pos.compare m m' end) =
  (Zpos m * 2 ^ (e + 1074) ?= Zpos m' * 2 ^ (e' + 1074))%Z.
Proof.
  intros V V'. apply valid_bounds in V. apply valid_bounds in V'. destruct V as [A [B C]], V' as [A' [B' C']].
  destruct (Z.compare_spec e e') as [->|H|H]; symmetry.
  - rewrite <- Zmult_compare_compat_r; [reflexivity|]. apply Z.lt_gt. apply Z.pow_pos_nonneg; lia.
  - apply Z.compare_lt_iff. apply mant_lt; lia.
  - apply Z.compare_gt_iff. apply mant_lt; lia.
Qed.
Lemma mag_small s m e : valid_binary 53 1024 (S754_finite s m e) = true ->
  (0 < Zpos m * 2 ^ (e + 1074) < 2 ^ 2100)%Z.
Proof.
  intros V. apply valid_bounds in V. destruct V as [A [B _]].
  assert (P : (0 < 2 ^ (e + 1074))%Z) by (apply Z.pow_pos_nonneg; lia).
  assert (Q : (2 ^ (e + 1074) <= 2 ^ 2047)%Z) by (apply Z.pow_le_mono_r; lia).
  assert (E : (2 ^ 2100 = 2 ^ 53 * 2 ^ 2047)%Z) by (rewrite <- Z.pow_add_r by lia; reflexivity).
  rewrite E. set (p := (2 ^ (e + 1074))%Z) in *. set (q := (2 ^ 2047)%Z) in *. set (t := (2 ^ 53)%Z) in *.
  split; [apply Z.mul_pos_pos; lia|]. apply Z.lt_le_trans with (t * p)%Z; [apply Z.mul_lt_mono_pos_r; lia|].
  apply Z.mul_le_mono_nonneg_l; lia.
Qed.
Lemma double_compare x y : is_double x -> is_double y ->
  dcompare x y = (times_2_1074 x ?= times_2_1074 y)%Z.
Proof.
  intros [Vx Nx] [Vy Ny]. unfold dcompare.
  assert (B : (0 < 2 ^ 2100)%Z) by (apply Z.pow_pos_nonneg; lia).
  destruct x as [sx|sx| |sx mx ex], y as [sy|sy| |sy my ey]; try contradiction; cbn [SFcompare times_2_1074];
    repeat match goal with
           | H : valid_binary 53 1024 (S754_finite ?s ?m ?e) = true |- _ =>
             lazymatch goal with
             | _ : (0 < Zpos m * 2 ^ (e + 1074) < _)%Z |- _ => fail
             | _ => pose proof (mag_small s m e H)
             end
           end.
  all: set (big := (2 ^ 2100)%Z) in *.
  all: try (destruct sx); try (destruct sy); try reflexivity; symmetry;
       try (apply Z.compare_lt_iff; lia); try (apply Z.compare_gt_iff; lia); try (apply Z.compare_eq_iff; lia).
  - rewrite !Z.mul_opp_l, Z.compare_opp, Z.compare_antisym. rewrite <- (mag_compare true true mx my ex ey Vx Vy).
    destruct (Z.compare ex ey); reflexivity.
  - rewrite <- (mag_compare false false mx my ex ey Vx Vy). destruct (Z.compare ex ey); reflexivity.
Qed.
Lemma double_same x y : is_double x -> is_double y -> times_2_1074 x = times_2_1074 y ->
  x = y \/ (exists s s', x = S754_zero s /\ y = S754_zero s').
Proof.
  intros [Vx Nx] [Vy Ny] E.
  assert (B : (0 < 2 ^ 2100)%Z) by (apply Z.pow_pos_nonneg; lia).
  destruct x as [sx|sx| |sx mx ex], y as [sy|sy| |sy my ey]; try contradiction; cbn [times_2_1074] in E;
    repeat match goal with
           | H : valid_binary 53 1024 (S754_finite ?s ?m ?e) = true |- _ =>
             lazymatch goal with
             | _ : (0 < Zpos m * 2 ^ (e + 1074) < _)%Z |- _ => fail
             | _ => pose proof (mag_small s m e H)
             end
           end.
  all: set (big := (2 ^ 2100)%Z) in *.
  all: try (destruct sx); try (destruct sy); try (exfalso; lia); try (left; reflexivity);
       try (right; eexists _, _; split; reflexivity).
  all: left; assert (X : (Zpos mx * 2 ^ (ex + 1074) ?= Zpos my * 2 ^ (ey + 1074))%Z = Eq) by (apply Z.compare_eq_iff; lia).
  all: rewrite <- (mag_compare _ _ mx my ex ey Vx Vy) in X; destruct (Z.compare_spec ex ey) as [->| |]; try discriminate X;
       apply Pos.compare_eq in X; subst; reflexivity.
Qed.

Definition flonum (f : spec_float) : val := VNum (NReal (RFlo f)).
(** Flonums are ordered as the numbers they stand for; those that compare as equal are the
    same, but for the two zeros. *)
Theorem C13_flonums_partial : forall x y, is_double x -> is_double y ->
  cons_compare (flonum x) (flonum y) = (times_2_1074 x ?= times_2_1074 y)%Z /\
  (cons_compare (flonum x) (flonum y) = Eq -> x = y \/ exists s s', x = S754_zero s /\ y = S754_zero s').
Proof.
  intros x y Hx Hy. rewrite cons_compare_q. cbn [flonum qcompare numcompare]. rewrite (double_compare x y Hx Hy).
  split; [reflexivity|]. intros E. apply Z.compare_eq_iff in E. exact (double_same x y Hx Hy E).
Qed.
Example C13_flonums_partial_case :
  is_double (S754_finite true 4503599627370497 (-52)) /\ is_double (S754_finite false 1 (-1074)) /\
  cons_compare (flonum (S754_finite true 4503599627370497 (-52))) (flonum (S754_finite false 1 (-1074))) = Lt.
Proof. repeat split; try discriminate; reflexivity. Qed.

(** ** Findings *)

(** Strings that differ only after a NUL byte are considered the same value. *)
Theorem C13_nul_strings_refuted : exists x y,
  x <> y /\ cons_compare x y = Eq /\ lequal x y = true.
Proof.
  exists (VStr [97; 0; 98]), (VStr [97; 0; 99]). split; [discriminate|]. split; reflexivity.
Qed.

(** NaN equals every flonum, so equality is not transitive. *)
Definition flo (z : Z) : val := VNum (NReal (RFlo (z2d z))).
Definition nan : val := VNum (NReal (RFlo S754_nan)).
Theorem C13_nan_refuted : exists a b c,
  cons_compare a b = Eq /\ cons_compare b c = Eq /\ cons_compare a c = Lt
  /\ lequal a b = true /\ lequal b c = true /\ lequal a c = false.
Proof. exists (flo 1), nan, (flo 2). vm_compute. auto 6. Qed.

(** Complex numbers are compared by magnitude only: 3+4i and 4+3i (and 5 plus any
    complex number, see next) are the same element of a choice. *)
Definition cpx (re im : Z) : val := VNum (NCpx (RInt re) (RInt im)).
Theorem C13_complex_refuted : exists x y,
  x <> y /\ cons_compare x y = Eq /\ lequal x y = true.
Proof. exists (cpx 3 4), (cpx 4 3). split; [discriminate|]. vm_compute. auto. Qed.

(** When only the second argument is complex, the answer is always "equal";
    swapping the arguments gives a different answer. *)
Theorem C13_complex_antisym_refuted : exists x y,
  cons_compare x y = Eq /\ cons_compare y x = Lt /\ lequal x y = true /\ lequal y x = false.
Proof. exists (VNum (NReal (RInt (2^70)))), (cpx 3 4). vm_compute. auto 6. Qed.

(** A packet and a secret with the same bytes are equal? but not the same choice
    element. *)
Theorem C13_secret_refuted : exists x y,
  lequal x y = true /\ cons_compare x y <> Eq.
Proof. exists (VPacket false [1; 2]), (VPacket true [1; 2]). split; [reflexivity|discriminate]. Qed.

(** Flonums and rationals together are not ordered: a rational is compared with a flonum by
    its approximation, with another rational exactly.  Of the first of these two rationals the
    approximation is the greater one, though the rational is the smaller one. *)
Theorem C13_flonum_rational_refuted : exists x y z,
  cons_compare x y = Lt /\ cons_compare y z = Lt /\ cons_compare z x = Lt.
Proof.
  exists (VNum (NReal (RRat (2 ^ 53 + 3) (2 ^ 53 + 1)))), (VNum (NReal (RRat (2 ^ 53 + 5) (2 ^ 53 + 2)))),
    (flonum (S754_finite false 4503599627370497 (-52))).
  vm_compute. auto.
Qed.

Print Assumptions C13_flonums_partial.
Print Assumptions C13_flonum_rational_refuted.
Print Assumptions C13_total_order_partial.
Print Assumptions C13_three_comparisons_agree.
Print Assumptions C13_atoms_first.
Print Assumptions C13_equal_agrees_partial.
Print Assumptions C13_nul_strings_refuted.
Print Assumptions C13_nan_refuted.
Print Assumptions C13_complex_refuted.
Print Assumptions C13_complex_antisym_refuted.
Print Assumptions C13_secret_refuted.

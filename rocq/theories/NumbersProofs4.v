(** * Proofs about products, quotients, powers and comparison primitives. *)

From Coq Require Import ZArith List Bool Lia QArith Qfield Qround Qabs Qpower.
From Verif Require Import SortModel BigintModel BigintProofs BigintProofs3 BigintProofs4 NumbersModel NumbersProofs NumbersProofs2 NumbersProofs3.
Import ListNotations.
Open Scope Z_scope.

Definition zprod (l : list Z) : Z := fold_right Z.mul 1 l.
Lemma qprod_map zs : (qprod (map (fun z => RI (Fix z)) zs) == inject_Z (zprod zs))%Q.
Proof.
  induction zs as [|z t IH]; cbn [map qprod fold_right zprod rq ival]; [reflexivity|].
  rewrite inject_Z_mult. unfold qprod in IH. rewrite IH. reflexivity.
Qed.
Lemma times_big_spec l : Forall fixr l -> forall acc, iok acc ->
  exists i, times_big acc l = Some i /\ iok i /\ ival i = ival acc * zprod l /\ (inear acc -> inear i).
Proof.
  induction 1 as [|z t Hz Ht IH]; intros acc Ha; cbn [times_big zprod fold_right].
  - exists acc. repeat split; auto. lia.
  - destruct (imultiply_spec acc (Fix z) Ha Hz) as (a & -> & Oa & Va & Na).
    destruct (IH a Oa) as (i & E & O & V & N). exists i. split; [auto|]. split; [auto|]. split.
    + rewrite V, Va. cbn [ival]. unfold zprod. ring.
    + intros A. apply N, Na. split; auto.
Qed.
Lemma to_int_le q : 0 <= q -> to_int q <= q.
Proof.
  intros H. unfold to_int. pose proof (Z.mod_le (q + 2147483648) 4294967296 ltac:(lia) ltac:(lia)). lia.
Qed.
(** The limit that times_lexpr keeps in an int is not above the true one, so the product
    computed as a long long does not overflow. *)
Lemma times_guard acc mult : fixr mult -> mult <> 0 -> fixr acc ->
  (if 0 <? acc
   then to_int (if 0 <? mult then Z.quot max_fixnum mult else Z.quot min_fixnum mult) <? acc
   else to_int (if 0 <? mult then Z.quot max_fixnum mult else Z.quot min_fixnum mult) <? - acc) = false ->
  fixr (acc * mult).
Proof.
  intros Hm Nm Ha H.
  destruct (Z.eq_dec acc 0) as [->|Na]; [cbn; fx; lia|].
  apply product_fits; auto.
  set (q := if 0 <? mult then Z.quot max_fixnum mult else Z.quot min_fixnum mult) in *.
  assert (Q0 : 0 <= q).
  { unfold q. destruct (Z.ltb_spec 0 mult).
    - apply Z.quot_pos; fx; lia.
    - change min_fixnum with (- max_fixnum). replace mult with (- - mult) by lia.
      rewrite Z.quot_opp_opp by lia. apply Z.quot_pos; fx; lia. }
  pose proof (to_int_le q Q0).
  destruct (Z.ltb_spec 0 acc); rewrite Z.ltb_ge in *; lia.
Qed.
Lemma times_fix_spec l : Forall fixr l -> forall acc, fixr acc ->
  exists i, times_fix l acc = Some i /\ inear i /\ ival i = acc * zprod l.
Proof.
  induction 1 as [|z t Hz Ht IH]; intros acc Ha; cbn [times_fix zprod fold_right].
  - destruct (kno_int_spec acc) as (i & E & C & V); [fx; lia|]. exists i. split; [auto|].
    split; [apply icanon_near; auto|lia].
  - destruct (Z.eqb_spec z 0) as [->|Nz].
    { exists (Fix 0). split; [auto|]. split; [cbn; fx; lia|]. cbn [ival]. ring. }
    cbv zeta. match goal with |- context [if ?c then _ else (do a <- int64 _; _)] => destruct c eqn:T end.
    + destruct (kno_int_spec acc) as (k & -> & Ck & Vk); [fx; lia|].
      destruct (imultiply_spec k (Fix z) (icanon_ok _ Ck) Hz) as (b & -> & Ob & Vb & Nb).
      destruct (times_big_spec t Ht b Ob) as (i & E & O & V & N). exists i. split; [auto|]. split.
      * apply N, Nb. split; [apply icanon_near; auto|auto].
      * rewrite V, Vb, Vk. cbn [ival]. unfold zprod. ring.
    + pose proof (times_guard acc z Hz Nz Ha T) as P.
      rewrite int64_some by (fx; lia). destruct (IH (acc * z) P) as (i & E & N & V). exists i.
      split; [auto|]. split; [auto|]. rewrite V. unfold zprod. ring.
Qed.
Lemma all_fix_range l zs : Forall rok l -> all_fix l = Some zs -> Forall fixr zs.
Proof.
  intros H E. apply all_fix_map in E. subst l. rewrite Forall_map in H. exact H.
Qed.
Lemma times_lexpr_spec l : Forall rok l -> real_res (times_lexpr l) (qprod l) (Forall rwf l).
Proof.
  intros HF.
  assert (G : real_res match all_fix l with
    | Some zs => ival_res (times_fix zs 1)
    | None => fold_res rmultiply (Val (RI (Fix 1))) l
    end (qprod l) (Forall rwf l)).
  { destruct (all_fix l) as [zs|] eqn:E.
    - destruct (times_fix_spec zs (all_fix_range l zs HF E) 1) as (i & -> & N & V); [fx; lia|].
      exists (RI i). split; [auto|]. split; [apply inear_ok; auto|]. split; [|intros _; exact N].
      cbn [rq]. rewrite V, Z.mul_1_l. apply all_fix_map in E. rewrite E, qprod_map. reflexivity.
    - eapply real_res_q; [apply (fold_res_spec rmultiply Qmult)|..]; auto.
      + intros; apply rmultiply_spec; auto.
      + intros a b c d E1 E2. rewrite E1, E2. reflexivity.
      + apply fix1_ok.
      + rewrite fold_prod. cbn [rq ival]. change (inject_Z 1) with 1%Q. ring.
      + intros W. split; [cbn; fx; lia|auto]. }
  unfold times_lexpr. destruct l as [|x [|y [|z t]]]; try exact G.
  - inversion HF; subst. exists x. split; [auto|]. split; [auto|]. split; [cbn [qprod fold_right]; ring|].
    intros W. inversion W; auto.
  - inversion HF as [|? ? A B]; subst. inversion B; subst.
    eapply real_res_q; [apply rmultiply_spec; auto|cbn [qprod fold_right]; ring|].
    intros W. inversion W as [|? ? A' B']; subst. inversion B'; subst. auto.
Qed.
(** Division by numbers none of which is zero. *)
Lemma fold_div_spec l : Forall rok l -> Forall (fun y => ~ (rq y == 0)%Q) l -> forall acc, rok acc ->
  real_res (fold_res rdivide (Val acc) l) (rq acc / qprod l)
    (rwf acc /\ Forall rwf l /\ Forall (fun y => 0 < rq y)%Q l).
Proof.
  induction l as [|y t IH]; intros HF HN acc Ha; cbn [fold_res].
  - exists acc. split; [auto|]. split; [auto|]. split; [cbn [qprod fold_right]; field|tauto].
  - inversion HF as [|? ? Hy Ht]; subst. inversion HN as [|? ? Ny Nt]; subst. cbn [rop].
    destruct (rdivide_spec acc y Ha Hy Ny) as (r & -> & Or & Q & C).
    assert (NP : ~ (qprod t == 0)%Q).
    { clear - Nt. induction Nt as [|z t Nz Nt IH]; cbn [qprod fold_right]; [intros E; discriminate E|].
      intros E. apply Qmult_integral in E. unfold qprod in IH. tauto. }
    eapply real_res_q; [apply (IH Ht Nt r Or)|..].
    + rewrite Q. cbn [qprod fold_right]. unfold qprod in *. field. auto.
    + intros (A & B & P). inversion B; subst. inversion P; subst. tauto.
Qed.
Lemma div_lexpr_spec x l : Forall rok (x :: l) ->
  Forall (fun y => ~ (rq y == 0)%Q) (match l with [] => [x] | _ => l end) ->
  real_res (div_lexpr (x :: l)) (match l with [] => / rq x | _ => rq x / qprod l end)
    (Forall rwf (x :: l) /\ Forall (fun y => 0 < rq y)%Q (match l with [] => [x] | _ => l end)).
Proof.
  intros HF HN. inversion HF as [|? ? Hx Hl]; subst. destruct l as [|y t]; cbn [div_lexpr].
  - inversion HN; subst. eapply real_res_q; [apply rdivide_spec; auto; apply fix1_ok|..].
    + cbn [rq ival]. change (inject_Z 1) with 1%Q. field. auto.
    + intros [W P]. inversion W; subst. inversion P; subst. split; [cbn; fx; lia|]. auto.
  - eapply real_res_q; [apply fold_div_spec; auto|reflexivity|].
    intros [W P]. inversion W; subst. auto.
Qed.
(** A zero divisor among well-formed numbers with positive ones before it is reported. *)
Lemma fold_err f l : fold_res f Err l = Some Err.
Proof. induction l; cbn; auto. Qed.
Lemma fold_div_zero l : forall acc, rwf acc -> Forall rwf l -> Forall (fun y => 0 <= rq y)%Q l ->
  Exists (fun y => rq y == 0)%Q l -> fold_res rdivide (Val acc) l = Some Err.
Proof.
  induction l as [|y t IH]; intros acc Ha HF HP HE; [inversion HE|].
  inversion HF as [|? ? Hy Ht]; subst. inversion HP as [|? ? Py Pt]; subst. cbn [fold_res rop].
  destruct (Qeq_dec (rq y) 0) as [E|N].
  - rewrite (rdivide_zero acc y Ha Hy E). apply fold_err.
  - inversion HE as [? ? E|? ? E]; subst; [contradiction|].
    assert (P : (0 < rq y)%Q). { apply Qle_lteq in Py as [L|L]; [auto|]. exfalso. apply N. symmetry. auto. }
    destruct (rdivide_spec acc y (rwf_ok _ Ha) (rwf_ok _ Hy) N) as (r & -> & Or & Q & C).
    apply IH; auto.
Qed.

(** ** Powers *)

Lemma pow_loop_spec n v : rok v -> forall prod, rok prod ->
  real_res (pow_loop n (Val prod) v) (rq prod * Qpower (rq v) (Z.of_nat n)) (rwf prod /\ rwf v).
Proof.
  intros Hv. induction n as [|n IH]; intros prod Hp; cbn [pow_loop].
  - exists prod. split; [auto|]. split; [auto|]. split; [cbn; ring|tauto].
  - cbn [rop]. destruct (rmultiply_spec prod v Hp Hv) as (r & -> & Or & Q & C).
    eapply real_res_q; [apply (IH r Or)|..]; [|tauto].
    rewrite Q. rewrite Nat2Z.inj_succ. unfold Z.succ.
    rewrite Qpower_plus' by lia. change (Qpower (rq v) 1) with (rq v). ring.
Qed.
Lemma pow_spec v n : rok v -> 0 <= n -> v <> RI (Fix 0) ->
  real_res (pow_prim v n) (Qpower (rq v) n) (rwf v).
Proof.
  intros Hv Hn Nv.
  assert (E : pow_prim v n = pow_loop (Z.to_nat n) (Val (RI (Fix 1))) v).
  { destruct v as [[[|p|p]|b]|a d]; try reflexivity. congruence. }
  rewrite E. eapply real_res_q; [apply pow_loop_spec; auto; apply fix1_ok|..].
  - rewrite Z2Nat.id by auto. cbn [rq ival]. change (inject_Z 1) with 1%Q. ring.
  - intros W. split; [cbn; fx; lia|auto].
Qed.

(** ** Extremes and comparisons *)

Lemma best_min_spec l : Forall rok l -> forall acc, rok acc ->
  exists r, best (fun c => c <? 0) acc l = Some r /\ In r (acc :: l) /\ Forall (fun x => rq r <= rq x)%Q (acc :: l).
Proof.
  induction 1 as [|x t Hx Ht IH]; intros acc Ha; cbn [best].
  - exists acc. split; [auto|]. split; [left; auto|]. constructor; [apply Qle_refl|constructor].
  - rewrite numcompare_spec by auto.
    destruct (Qcompare_spec (rq x) (rq acc)) as [E|L|L]; cbn [csign Z.ltb Z.compare].
    + destruct (IH acc Ha) as (r & E1 & I & F). exists r. split; [auto|]. split; [destruct I; [left|right; right]; auto|].
      inversion F; subst. constructor; [auto|]. constructor; [rewrite E; auto|auto].
    + destruct (IH x Hx) as (r & E1 & I & F). exists r. split; [auto|]. split; [right; destruct I; [left|right]; auto|].
      inversion F; subst. constructor; [|auto]. apply Qle_trans with (rq x); [auto|apply Qlt_le_weak; auto].
    + destruct (IH acc Ha) as (r & E1 & I & F). exists r. split; [auto|]. split; [destruct I; [left|right; right]; auto|].
      inversion F; subst. constructor; [auto|]. constructor; [|auto].
      apply Qle_trans with (rq acc); [auto|apply Qlt_le_weak; auto].
Qed.
Lemma best_max_spec l : Forall rok l -> forall acc, rok acc ->
  exists r, best (fun c => 0 <? c) acc l = Some r /\ In r (acc :: l) /\ Forall (fun x => rq x <= rq r)%Q (acc :: l).
Proof.
  induction 1 as [|x t Hx Ht IH]; intros acc Ha; cbn [best].
  - exists acc. split; [auto|]. split; [left; auto|]. constructor; [apply Qle_refl|constructor].
  - rewrite numcompare_spec by auto.
    destruct (Qcompare_spec (rq x) (rq acc)) as [E|L|L]; cbn [csign Z.ltb Z.compare].
    + destruct (IH acc Ha) as (r & E1 & I & F). exists r. split; [auto|]. split; [destruct I; [left|right; right]; auto|].
      inversion F; subst. constructor; [auto|]. constructor; [rewrite E; auto|auto].
    + destruct (IH acc Ha) as (r & E1 & I & F). exists r. split; [auto|]. split; [destruct I; [left|right; right]; auto|].
      inversion F; subst. constructor; [auto|]. constructor; [|auto].
      apply Qle_trans with (rq acc); [apply Qlt_le_weak; auto|auto].
    + destruct (IH x Hx) as (r & E1 & I & F). exists r. split; [auto|]. split; [right; destruct I; [left|right]; auto|].
      inversion F; subst. constructor; [|auto]. apply Qle_trans with (rq x); [apply Qlt_le_weak; auto|auto].
Qed.
(** Every argument is related to its neighbour. *)
Fixpoint chain (R : Q -> Q -> Prop) (x : real) (l : list real) : Prop :=
  match l with [] => True | y :: t => R (rq x) (rq y) /\ chain R y t end.
Lemma do_compare_spec (test : Z -> bool) (R : Q -> Q -> Prop) :
  (forall a b, test (csign (a ?= b)%Q) = true <-> R a b) ->
  forall l x, rok x -> Forall rok l ->
  exists b, do_compare test x l = Some b /\ (b = true <-> chain R x l).
Proof.
  intros HR. induction l as [|y t IH]; intros x Hx HF; cbn [do_compare chain].
  - exists true. split; [auto|]. tauto.
  - inversion HF as [|? ? Hy Ht]; subst. rewrite numcompare_spec by auto.
    destruct (test (csign (rq x ?= rq y)%Q)) eqn:T.
    + destruct (IH y Hy Ht) as (b & E & S). exists b. split; [auto|]. apply HR in T. tauto.
    + exists false. split; [auto|]. split; [discriminate|]. intros [H _]. apply HR in H. congruence.
Qed.
Lemma lt_test a b : (csign (a ?= b)%Q =? -1) = true <-> (a < b)%Q.
Proof.
  destruct (Qcompare_spec a b) as [E|L|L]; cbn; split; intros H; try discriminate; auto.
  - rewrite E in H. apply Qlt_irrefl in H. contradiction.
  - exfalso. apply (Qlt_irrefl a). apply Qlt_trans with b; auto.
Qed.
Lemma lte_test a b : ((csign (a ?= b)%Q =? -1) || (csign (a ?= b)%Q =? 0)) = true <-> (a <= b)%Q.
Proof.
  destruct (Qcompare_spec a b) as [E|L|L]; cbn; split; intros H; try discriminate; auto.
  - rewrite E. apply Qle_refl.
  - apply Qlt_le_weak; auto.
  - exfalso. apply (Qlt_not_le _ _ L H).
Qed.
Lemma eq_test a b : (csign (a ?= b)%Q =? 0) = true <-> (a == b)%Q.
Proof.
  destruct (Qcompare_spec a b) as [E|L|L]; cbn; split; intros H; try discriminate; auto;
    rewrite H in L; exfalso; apply (Qlt_irrefl b); auto.
Qed.
Lemma gte_test a b : ((csign (a ?= b)%Q =? 0) || (csign (a ?= b)%Q =? 1)) = true <-> (b <= a)%Q.
Proof.
  destruct (Qcompare_spec a b) as [E|L|L]; cbn; split; intros H; try discriminate; auto.
  - rewrite E. apply Qle_refl.
  - exfalso. apply (Qlt_not_le _ _ L H).
  - apply Qlt_le_weak; auto.
Qed.
Lemma gt_test a b : (csign (a ?= b)%Q =? 1) = true <-> (b < a)%Q.
Proof.
  destruct (Qcompare_spec a b) as [E|L|L]; cbn; split; intros H; try discriminate; auto.
  - rewrite E in H. apply Qlt_irrefl in H. contradiction.
  - exfalso. apply (Qlt_irrefl a). apply Qlt_trans with b; auto.
Qed.
Lemma neq_test a b : ((csign (a ?= b)%Q =? -1) || (csign (a ?= b)%Q =? 1)) = true <-> ~ (a == b)%Q.
Proof.
  destruct (Qcompare_spec a b) as [E|L|L]; cbn; split; intros H; try discriminate; auto; try contradiction;
    intros E; rewrite E in L; apply (Qlt_irrefl b); auto.
Qed.

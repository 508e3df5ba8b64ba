(** * The digit algorithms compute on the integers that the digits denote. *)

From Coq Require Import ZArith List Bool Lia.
From Verif Require Import BigintModel.
Import ListNotations.
Open Scope Z_scope.

(** Splits only the conjunctions in sight. *)
Ltac sp := repeat match goal with |- _ /\ _ => split end; try reflexivity.

(** ** Words and half digits *)

Lemma int32_some z : -2147483648 <= z <= 2147483647 -> int32 z = Some z.
Proof. intros H; unfold int32. destruct (Z.leb_spec (-2147483648) z), (Z.leb_spec z 2147483647); auto; lia. Qed.

Lemma land_shiftl a b n : 0 <= n -> 0 <= b < 2 ^ n -> Z.land (Z.shiftl a n) b = 0.
Proof.
  intros Hn Hb. apply Z.bits_inj'; intros m Hm. rewrite Z.land_spec, Z.bits_0.
  destruct (Z.lt_ge_cases m n) as [L|L].
  - rewrite Z.shiftl_spec_low; auto.
  - destruct (Z.eq_dec b 0) as [->|Hb0]; [rewrite Z.bits_0; apply andb_false_r|].
    rewrite (Z.bits_above_log2 b m); [apply andb_false_r|lia|].
    apply Z.lt_le_trans with n; [apply Z.log2_lt_pow2; lia|lia].
Qed.
Lemma lor_add a b n : 0 <= n -> 0 <= b < 2 ^ n -> Z.lor (Z.shiftl a n) b = a * 2 ^ n + b.
Proof.
  intros Hn Hb. pose proof (land_shiftl a b n Hn Hb) as HL.
  rewrite <- (Z.lxor_lor _ _ HL), <- (Z.add_nocarry_lxor _ _ HL), Z.shiftl_mul_pow2; lia.
Qed.

Lemma hd_low_eq d : hd_low d = d mod 32768.
Proof. unfold hd_low, radix_root. change (32768 - 1) with (Z.ones 15). rewrite Z.land_ones; [reflexivity|lia]. Qed.
Lemma hd_high_eq d : hd_high d = d / 32768.
Proof. unfold hd_high. rewrite Z.shiftr_div_pow2; [reflexivity|lia]. Qed.
Lemma hd_cons_eq h l : 0 <= l < 32768 -> hd_cons h l = h * 32768 + l.
Proof. intros H. unfold hd_cons. rewrite lor_add; [reflexivity|lia|exact H]. Qed.

(** [x] split into half digits. *)
Ltac split_hd x :=
  let l := fresh "lo" in let h := fresh "hi" in
  rewrite ?(hd_low_eq x), ?(hd_high_eq x) in *;
  pose proof (Z.div_mod x 32768 ltac:(lia));
  pose proof (Z.mod_pos_bound x 32768 ltac:(lia));
  set (l := x mod 32768) in *; set (h := x / 32768) in *; clearbody l h.

(** ** Values of digit lists *)

Fixpoint val (ds : list Z) : Z :=
  match ds with [] => 0 | d :: t => d + radix * val t end.
Definition dig (d : Z) : Prop := 0 <= d < radix.
Definition digs (ds : list Z) : Prop := Forall dig ds.
Definition bp (n : nat) : Z := radix ^ Z.of_nat n.

Lemma radix_eq : radix = 1073741824. Proof. reflexivity. Qed.
Lemma bp_S n : bp (S n) = radix * bp n.
Proof. unfold bp. rewrite Nat2Z.inj_succ, Z.pow_succ_r; lia. Qed.
Lemma bp_0 : bp 0 = 1. Proof. reflexivity. Qed.
Lemma bp_pos n : 0 < bp n.
Proof. unfold bp. apply Z.pow_pos_nonneg; [reflexivity|lia]. Qed.
Lemma bp_add a b : bp (a + b) = bp a * bp b.
Proof. unfold bp. rewrite Nat2Z.inj_add, Z.pow_add_r; lia. Qed.
Lemma bp_le a b : (a <= b)%nat -> bp a <= bp b.
Proof. intros H. unfold bp. apply Z.pow_le_mono_r; [reflexivity|lia]. Qed.

Lemma val_app a b : val (a ++ b) = val a + bp (length a) * val b.
Proof.
  induction a as [|d a IH]; cbn [val app length]; [rewrite bp_0; lia|].
  rewrite IH, bp_S. ring.
Qed.
Lemma val_repeat n : val (repeat 0 n) = 0.
Proof. induction n; cbn [repeat val]; lia. Qed.
Lemma digs_app a b : digs (a ++ b) <-> digs a /\ digs b.
Proof. apply Forall_app. Qed.
Lemma digs_repeat n : digs (repeat 0 n).
Proof. apply Forall_forall. intros x H. apply repeat_spec in H. subst. unfold dig, radix. lia. Qed.
Lemma val_range ds : digs ds -> 0 <= val ds < bp (length ds).
Proof.
  induction 1 as [|d t H _ IH]; cbn [val length]; [rewrite bp_0; lia|].
  rewrite bp_S. unfold dig in H. rewrite radix_eq in *. nia.
Qed.
Lemma val_inj a b : digs a -> digs b -> length a = length b -> val a = val b -> a = b.
Proof.
  revert b; induction a as [|x a IH]; intros [|y b] Ha Hb HL HV; cbn in HL; try discriminate; auto.
  inversion Ha as [|? ? Hx Ha']; inversion Hb as [|? ? Hy Hb']; subst. cbn [val] in HV.
  unfold dig in Hx, Hy. rewrite radix_eq in *.
  assert (x = y) by lia. subst. f_equal. apply IH; auto; lia.
Qed.

(** ** Trimming *)

Definition topnz (ds : list Z) : Prop := ds = [] \/ last ds 0 <> 0.

Lemma drop_zeros_spec ds :
  exists n, ds = repeat 0 n ++ drop_zeros ds /\ (drop_zeros ds = [] \/ hd 0 (drop_zeros ds) <> 0).
Proof.
  induction ds as [|d t [n [E H]]]; [exists O; cbn; auto|].
  cbn [drop_zeros]. destruct (Z.eqb_spec d 0) as [->|Hd].
  - exists (S n). split; [cbn; rewrite <- E; reflexivity|exact H].
  - exists O. split; [reflexivity|right; exact Hd].
Qed.
Lemma rev_repeat0 n : rev (repeat 0 n) = repeat 0 n.
Proof.
  induction n; [reflexivity|]. cbn [repeat rev]. rewrite IHn. clear.
  induction n; [reflexivity|]. cbn. f_equal. exact IHn.
Qed.
Lemma last_rev {A} (l : list A) d : last (rev l) d = hd d l.
Proof. destruct l; [reflexivity|]. cbn [rev hd]. apply last_last. Qed.
Lemma strip_spec ds :
  exists n, ds = rev (drop_zeros (rev ds)) ++ repeat 0 n /\ topnz (rev (drop_zeros (rev ds))).
Proof.
  destruct (drop_zeros_spec (rev ds)) as [n [E H]]. exists n. split.
  - rewrite <- (rev_repeat0 n), <- rev_app_distr, <- E, rev_involutive. reflexivity.
  - unfold topnz. destruct H as [H|H]; [left; rewrite H; reflexivity|right].
    rewrite last_rev. exact H.
Qed.
Lemma val_pad ds n : val (ds ++ repeat 0 n) = val ds.
Proof. rewrite val_app, val_repeat. lia. Qed.

(** Normal form: digits in range, leading digit not zero, zero not negative. *)
Definition norm (b : bigint) : Prop :=
  digs (bdig b) /\ topnz (bdig b) /\ (bdig b = [] -> bneg b = false).
Definition bval (b : bigint) : Z := (if bneg b then -1 else 1) * val (bdig b).

Lemma bval_neg n ds : bval (BI n ds) = if n then - val ds else val ds.
Proof. unfold bval. cbn. destruct n; lia. Qed.

Lemma trim_spec n ds : digs ds -> (ds = [] -> n = false) ->
  norm (trim (BI n ds)) /\ bval (trim (BI n ds)) = (if n then - val ds else val ds).
Proof.
  intros HD HN. destruct (strip_spec ds) as [k [E HT]].
  unfold trim, blength; cbn [bdig bneg].
  set (s := rev (drop_zeros (rev ds))) in *. clearbody s.
  assert (HV : val ds = val s) by (rewrite E, val_pad; reflexivity).
  assert (Hs : digs s) by (rewrite E in HD; apply digs_app in HD; tauto).
  destruct (Nat.ltb_spec (length s) (length ds)) as [L|L].
  - rewrite bval_neg, HV. unfold norm; cbn [bdig bneg]. destruct s as [|x s'].
    + cbn [negb andb val]. split; [sp; auto|destruct n; lia].
    + cbn [negb andb]. split; [sp; auto; discriminate|reflexivity].
  - assert (k = O) by (rewrite E, app_length, repeat_length in L; lia). subst k.
    cbn in E. rewrite app_nil_r in E. subst s.
    rewrite bval_neg. split; [|reflexivity]. unfold norm; sp; auto.
Qed.

(** ** Comparison *)

Lemma compare_digits_app x y : length x = length y -> digs x -> digs y ->
  compare_digits (rev x) (rev y) = Z.compare (val x) (val y).
Proof.
  revert y. induction x as [|a x IH] using rev_ind; intros y HL Hx Hy.
  - destruct y; [reflexivity|discriminate].
  - destruct y as [|b y] using rev_ind; [rewrite app_length in HL; cbn in HL; lia|]. clear IHy.
    rewrite !app_length in HL; cbn in HL.
    apply digs_app in Hx; apply digs_app in Hy. destruct Hx as [Hx Ha], Hy as [Hy Hb].
    inversion Ha as [|? ? Ha' _]; inversion Hb as [|? ? Hb' _]; subst.
    rewrite !rev_app_distr; cbn [rev app compare_digits].
    rewrite !val_app. cbn [val]. assert (EL : length x = length y) by lia. rewrite EL.
    pose proof (val_range x Hx) as Rx. pose proof (val_range y Hy) as Ry. rewrite EL in Rx.
    pose proof (bp_pos (length y)) as Hp.
    destruct (Z.ltb_spec a b); [symmetry; apply Z.compare_lt_iff; nia|].
    destruct (Z.ltb_spec b a); [symmetry; apply Z.compare_gt_iff; nia|].
    assert (a = b) by lia. subst b. rewrite IH by auto.
    destruct (Z.compare_spec (val x) (val y)); symmetry;
      [apply Z.compare_eq_iff|apply Z.compare_lt_iff|apply Z.compare_gt_iff]; nia.
Qed.
Lemma topnz_lower ds : digs ds -> topnz ds -> ds <> [] -> bp (length ds - 1) <= val ds.
Proof.
  intros HD HT HN. destruct ds as [|d ds] using rev_ind; [congruence|]. clear IHds.
  destruct HT as [HT|HT]; [destruct ds; discriminate|]. rewrite last_last in HT.
  apply digs_app in HD. destruct HD as [HD Hd]. inversion Hd as [|? ? Hd' _]; subst.
  rewrite app_length; cbn [length]. replace (length ds + 1 - 1)%nat with (length ds) by lia.
  rewrite val_app. cbn [val]. pose proof (val_range ds HD). pose proof (bp_pos (length ds)).
  unfold dig in Hd'. nia.
Qed.
Lemma topnz_pos ds : digs ds -> topnz ds -> ds <> [] -> 0 < val ds.
Proof. intros. pose proof (topnz_lower ds H H0 H1). pose proof (bp_pos (length ds - 1)). lia. Qed.
Lemma longer_gt x y : digs x -> digs y -> topnz x -> (length y < length x)%nat -> val y < val x.
Proof.
  intros Hx Hy HT HL. pose proof (val_range y Hy).
  assert (x <> []) by (intros ->; cbn in HL; lia).
  pose proof (topnz_lower x Hx HT H0). pose proof (bp_le (length y) (length x - 1)). lia.
Qed.
Lemma compare_unsigned_spec x y : digs x -> digs y -> topnz x -> topnz y ->
  compare_unsigned x y = Z.compare (val x) (val y).
Proof.
  intros Hx Hy Tx Ty. unfold compare_unsigned.
  destruct (Nat.ltb_spec (length x) (length y)) as [L|L].
  - symmetry; apply Z.compare_lt_iff. apply longer_gt; auto.
  - destruct (Nat.ltb_spec (length y) (length x)) as [L'|L'].
    + symmetry; apply Z.compare_gt_iff. apply longer_gt; auto.
    + apply compare_digits_app; auto; lia.
Qed.

(** ** Addition *)

Ltac inv_digs H :=
  let H1 := fresh "Hd" in let H2 := fresh "Hds" in
  inversion H as [|? ? H1 H2]; subst; clear H; rename H2 into H.

Lemma dig_cons d t : dig d -> digs t -> digs (d :: t).
Proof. constructor; auto. Qed.

Lemma add_carry_spec xs : forall c, digs xs -> 0 <= c <= 1 ->
  exists t c', add_carry xs c = Some (t, c') /\ digs t /\ length t = length xs /\ 0 <= c' <= 1
    /\ val t + bp (length xs) * c' = val xs + c.
Proof.
  induction xs as [|x xs IH]; intros c HD Hc.
  - exists [], c. cbn [add_carry]. destruct (Z.eqb_spec c 0) as [->|].
    + sp; auto; try lia.
    + cbn [val length]. rewrite bp_0. sp; auto; lia.
  - cbn [add_carry]. destruct (Z.eqb_spec c 0) as [->|Hc0].
    + exists (x :: xs), 0. sp; auto; lia.
    + assert (c = 1) by lia. subst c. inv_digs HD. unfold dig in Hd. rewrite radix_eq in *.
      rewrite int32_some by lia.
      destruct (Z.ltb_spec (x + 1) 1073741824).
      * exists (x + 1 :: xs), 0. sp; auto; try lia.
        -- apply dig_cons; auto. unfold dig; rewrite radix_eq; lia.
        -- cbn [val]. lia.
      * destruct (IH 1 HD ltac:(lia)) as (t & c' & E & Ht & Hl & Hc' & Hv).
        rewrite E. exists (x + 1 - 1073741824 :: t), c'. sp; auto; try lia.
        -- apply dig_cons; auto. unfold dig; rewrite radix_eq; lia.
        -- cbn; lia.
        -- cbn [val length]. rewrite bp_S, radix_eq. lia.
Qed.
Lemma add_loop_spec ys : forall xs c, digs xs -> digs ys -> (length ys <= length xs)%nat -> 0 <= c <= 1 ->
  exists t c', add_loop xs ys c = Some (t, c') /\ digs t /\ length t = length xs /\ 0 <= c' <= 1
    /\ val t + bp (length xs) * c' = val xs + val ys + c.
Proof.
  induction ys as [|y ys IH]; intros xs c Hx Hy HL Hc.
  - cbn [add_loop]. destruct (add_carry_spec xs c Hx Hc) as (t & c' & E & H). exists t, c'.
    split; [exact E|]. cbn [val]. intuition lia.
  - destruct xs as [|x xs]; [cbn in HL; lia|]. cbn [add_loop]. cbn in HL.
    inv_digs Hx. inv_digs Hy. unfold dig in Hd, Hd0. rewrite radix_eq in *.
    rewrite int32_some by lia.
    destruct (Z.ltb_spec (x + y + c) 1073741824).
    + destruct (IH xs 0 Hx Hy ltac:(lia) ltac:(lia)) as (t & c' & E & Ht & Hl & Hc' & Hv).
      rewrite E. exists (x + y + c :: t), c'. sp; auto; try lia.
      * apply dig_cons; auto. unfold dig; rewrite radix_eq; lia.
      * cbn; lia.
      * cbn [val length]. rewrite bp_S, radix_eq. lia.
    + destruct (IH xs 1 Hx Hy ltac:(lia) ltac:(lia)) as (t & c' & E & Ht & Hl & Hc' & Hv).
      rewrite E. exists (x + y + c - 1073741824 :: t), c'. sp; auto; try lia.
      * apply dig_cons; auto. unfold dig; rewrite radix_eq; lia.
      * cbn; lia.
      * cbn [val length]. rewrite bp_S, radix_eq. lia.
Qed.

Lemma topnz_of_lower ds : digs ds -> ds <> [] -> bp (length ds - 1) <= val ds -> topnz ds.
Proof.
  intros HD HN HL. right. destruct ds as [|d ds] using rev_ind; [congruence|]. clear IHds.
  rewrite last_last. intros ->. rewrite app_length in HL; cbn [length] in HL.
  replace (length ds + 1 - 1)%nat with (length ds) in HL by lia.
  rewrite val_app in HL. cbn [val] in HL. apply digs_app in HD. destruct HD as [HD _].
  pose proof (val_range ds HD). lia.
Qed.

Lemma add_unsigned_spec x y n : digs x -> digs y -> topnz x -> topnz y -> x <> [] -> y <> [] ->
  exists r, add_unsigned x y n = Some r /\ norm r /\ bval r = if n then - (val x + val y) else val x + val y.
Proof.
  assert (W : forall x y, digs x -> digs y -> topnz x -> topnz y -> x <> [] -> y <> [] ->
    (length y <= length x)%nat ->
    exists r, (do (r, carry) <- add_loop x y 0;
       if carry =? 0 then Some (shorten_length (BI n (r ++ [0])) (length x))
       else Some (BI n (r ++ [1]))) = Some r /\ norm r /\ bval r = if n then - (val x + val y) else val x + val y).
  { clear x y. intros x y Hx Hy Tx Ty Nx Ny HL.
    destruct (add_loop_spec y x 0 Hx Hy HL ltac:(lia)) as (t & c' & E & Ht & Hl & Hc' & Hv).
    rewrite E. destruct (Z.eqb_spec c' 0) as [->|Hc0].
    - unfold shorten_length, blength; cbn [bdig bneg]. rewrite app_length; cbn [length].
      destruct (Nat.ltb_spec (length x) (length t + 1)); [|lia].
      replace (length x) with (length t) by auto. rewrite firstn_app, firstn_all, Nat.sub_diag.
      cbn [firstn]. rewrite app_nil_r. eexists; split; [reflexivity|].
      destruct t as [|d t]; [destruct x; [congruence|discriminate]|]. cbn [length Nat.eqb negb andb].
      split; [|rewrite bval_neg; destruct n; lia].
      split; [exact Ht|split; [|discriminate]]. cbn [bdig].
      apply topnz_of_lower; auto; [discriminate|]. rewrite Hl.
      pose proof (topnz_lower x Hx Tx Nx). pose proof (val_range y Hy). lia.
    - assert (c' = 1) by lia. subst c'. eexists; split; [reflexivity|].
      rewrite bval_neg, val_app. cbn [val]. rewrite Hl. split; [|destruct n; lia].
      split; [|split]; cbn [bdig bneg].
      + apply digs_app; split; auto. constructor; [unfold dig, radix; lia|constructor].
      + right. rewrite last_last. lia.
      + destruct t; discriminate. }
  intros Hx Hy Tx Ty Nx Ny. unfold add_unsigned.
  destruct (Nat.ltb_spec (length x) (length y)).
  - destruct (W y x Hy Hx Ty Tx Ny Nx ltac:(lia)) as (r & E & Hr & Hv). exists r.
    rewrite Hv. sp; auto; try apply Hr. destruct n; lia.
  - apply W; auto.
Qed.

(** ** Subtraction *)

Lemma sub_borrow_spec xs : forall c, digs xs -> 0 <= c <= 1 -> c <= val xs ->
  exists t, sub_borrow xs c = Some t /\ digs t /\ length t = length xs /\ val t = val xs - c.
Proof.
  induction xs as [|x xs IH]; intros c HD Hc Hv; cbn [sub_borrow].
  - cbn in Hv. assert (c = 0) by lia. subst. cbn. exists []. sp; auto.
  - destruct (Z.eqb_spec c 0) as [->|]; [exists (x :: xs); sp; auto; lia|].
    assert (c = 1) by lia. subst c. inv_digs HD. unfold dig in Hd. rewrite radix_eq in *.
    cbn [val] in Hv. rewrite radix_eq in Hv.
    rewrite int32_some by lia. destruct (Z.ltb_spec (x - 1) 0).
    + destruct (IH 1 HD ltac:(lia)) as (t & E & Ht & Hl & Hv'); [lia|].
      rewrite E. exists (x - 1 + 1073741824 :: t). sp.
      * apply dig_cons; auto. unfold dig; rewrite radix_eq; lia.
      * cbn; lia.
      * cbn [val]. rewrite radix_eq. lia.
    + exists (x - 1 :: xs). sp.
      * apply dig_cons; auto. unfold dig; rewrite radix_eq; lia.
      * cbn [val]. lia.
Qed.
Lemma sub_loop_spec ys : forall xs c, digs xs -> digs ys -> (length ys <= length xs)%nat -> 0 <= c <= 1 ->
  val ys + c <= val xs ->
  exists t, sub_loop xs ys c = Some t /\ digs t /\ length t = length xs /\ val t = val xs - val ys - c.
Proof.
  induction ys as [|y ys IH]; intros xs c Hx Hy HL Hc Hv.
  - cbn [sub_loop]. cbn [val] in Hv. destruct (sub_borrow_spec xs c Hx Hc ltac:(lia)) as (t & E & H).
    exists t. split; [exact E|]. cbn [val]. intuition lia.
  - destruct xs as [|x xs]; [cbn in HL; lia|]. cbn [sub_loop]. cbn in HL.
    inv_digs Hx. inv_digs Hy. unfold dig in Hd, Hd0. cbn [val] in Hv. rewrite radix_eq in *.
    rewrite int32_some by lia.
    destruct (Z.ltb_spec (x - y - c) 0).
    + destruct (IH xs 1 Hx Hy ltac:(lia) ltac:(lia) ltac:(lia)) as (t & E & Ht & Hl & Hv').
      rewrite E. exists (x - y - c + 1073741824 :: t). sp.
      * apply dig_cons; auto. unfold dig; rewrite radix_eq; lia.
      * cbn; lia.
      * cbn [val]. rewrite radix_eq. lia.
    + destruct (IH xs 0 Hx Hy ltac:(lia) ltac:(lia) ltac:(lia)) as (t & E & Ht & Hl & Hv').
      rewrite E. exists (x - y - c :: t). sp.
      * apply dig_cons; auto. unfold dig; rewrite radix_eq; lia.
      * cbn; lia.
      * cbn [val]. rewrite radix_eq. lia.
Qed.
Lemma val_lt_length x y : digs x -> digs y -> topnz y -> val y <= val x -> (length y <= length x)%nat.
Proof.
  intros Hx Hy Ty H. destruct (Nat.le_gt_cases (length y) (length x)); auto.
  pose proof (longer_gt y x Hy Hx Ty ltac:(lia)). lia.
Qed.
Lemma norm_zero : norm make_zero.
Proof. unfold norm; sp; auto. constructor. left; auto. Qed.
Lemma subtract_unsigned_spec x y n : digs x -> digs y -> topnz x -> topnz y -> x <> [] -> y <> [] ->
  exists r, subtract_unsigned x y n = Some r /\ norm r
    /\ bval r = if n then - (val x - val y) else val x - val y.
Proof.
  intros Hx Hy Tx Ty Nx Ny. unfold subtract_unsigned. rewrite compare_unsigned_spec by auto.
  destruct (Z.compare_spec (val x) (val y)) as [E|L|L].
  - exists make_zero. split; [reflexivity|]. split; [apply norm_zero|].
    cbn. destruct n; lia.
  - destruct (sub_loop_spec x y 0 Hy Hx) as (t & E & Ht & Hl & Hv); try lia.
    { apply val_lt_length; auto; lia. }
    rewrite E. eexists; split; [reflexivity|].
    destruct (trim_spec (negb n) t Ht) as [N V].
    { destruct t; [destruct y; [congruence|discriminate]|discriminate]. }
    split; [exact N|]. rewrite V, Hv. destruct n; cbn; lia.
  - destruct (sub_loop_spec y x 0 Hx Hy) as (t & E & Ht & Hl & Hv); try lia.
    { apply val_lt_length; auto; lia. }
    rewrite E. eexists; split; [reflexivity|].
    destruct (trim_spec n t Ht) as [N V].
    { destruct t; [destruct x; [congruence|discriminate]|discriminate]. }
    split; [exact N|]. rewrite V, Hv. destruct n; cbn; lia.
Qed.

Lemma bzero_p_spec b : bzero_p b = true -> bdig b = [].
Proof. unfold bzero_p. destruct (bdig b); [auto|discriminate]. Qed.
Lemma bzero_p_false b : bzero_p b = false -> bdig b <> [].
Proof. unfold bzero_p. destruct (bdig b); discriminate. Qed.
Lemma bval_zero b : bzero_p b = true -> bval b = 0.
Proof. intros H. unfold bval. rewrite (bzero_p_spec b H). cbn. destruct (bneg b); lia. Qed.
Lemma bval_pos b : bneg b = false -> bval b = val (bdig b).
Proof. unfold bval. intros ->. lia. Qed.
Lemma bval_negd b : bneg b = true -> bval b = - val (bdig b).
Proof. unfold bval. intros ->. lia. Qed.
Lemma norm_sign b n : norm b -> bzero_p b = false -> norm (BI n (bdig b)).
Proof. intros (A & B & C) Z. unfold norm; sp; auto. cbn. intros E. apply bzero_p_false in Z. contradiction. Qed.

Theorem bigint_add_spec x y : norm x -> norm y ->
  exists r, bigint_add x y = Some r /\ norm r /\ bval r = bval x + bval y.
Proof.
  intros Nx Ny. unfold bigint_add, bcopy.
  destruct (bzero_p x) eqn:Zx; [exists y; rewrite (bval_zero x Zx); sp; auto; try apply Ny; lia|].
  destruct (bzero_p y) eqn:Zy; [exists x; rewrite (bval_zero y Zy); sp; auto; try apply Nx; lia|].
  destruct Nx as (Hx & Tx & _), Ny as (Hy & Ty & _).
  apply bzero_p_false in Zx; apply bzero_p_false in Zy.
  destruct (bneg x) eqn:Sx, (bneg y) eqn:Sy;
    rewrite ?(bval_pos x Sx), ?(bval_pos y Sy), ?(bval_negd x Sx), ?(bval_negd y Sy).
  - destruct (add_unsigned_spec (bdig x) (bdig y) true) as (r & E & N & V); auto.
    exists r. sp; auto; try apply N; try lia.
  - destruct (subtract_unsigned_spec (bdig y) (bdig x) false) as (r & E & N & V); auto.
    exists r. sp; auto; try apply N; try lia.
  - destruct (subtract_unsigned_spec (bdig x) (bdig y) false) as (r & E & N & V); auto.
    exists r. sp; auto; try apply N; try lia.
  - destruct (add_unsigned_spec (bdig x) (bdig y) false) as (r & E & N & V); auto.
    exists r. sp; auto; try apply N.
Qed.
Theorem bigint_negate_spec x : norm x -> norm (bigint_negate x) /\ bval (bigint_negate x) = - bval x.
Proof.
  intros N. unfold bigint_negate, bcopy. destruct (bzero_p x) eqn:Zx.
  - rewrite (bval_zero x Zx). split; auto.
  - unfold new_sign. split; [apply norm_sign; auto|]. rewrite bval_neg.
    destruct (bneg x) eqn:S; cbn [negb]; [rewrite bval_negd by auto|rewrite bval_pos by auto]; lia.
Qed.
Theorem bigint_subtract_spec x y : norm x -> norm y ->
  exists r, bigint_subtract x y = Some r /\ norm r /\ bval r = bval x - bval y.
Proof.
  intros Nx Ny. unfold bigint_subtract, bcopy.
  destruct (bzero_p x) eqn:Zx.
  { rewrite (bval_zero x Zx). pose proof (bigint_negate_spec y Ny) as [A B].
    unfold bigint_negate, bcopy in *. destruct (bzero_p y) eqn:Zy; eexists; (split; [reflexivity|]);
      (split; [exact A|rewrite B; lia]). }
  destruct (bzero_p y) eqn:Zy; [exists x; rewrite (bval_zero y Zy); sp; auto; try apply Nx; lia|].
  destruct Nx as (Hx & Tx & _), Ny as (Hy & Ty & _).
  apply bzero_p_false in Zx; apply bzero_p_false in Zy.
  destruct (bneg x) eqn:Sx, (bneg y) eqn:Sy;
    rewrite ?(bval_pos x Sx), ?(bval_pos y Sy), ?(bval_negd x Sx), ?(bval_negd y Sy).
  - destruct (subtract_unsigned_spec (bdig x) (bdig y) true) as (r & E & N & V); auto.
    exists r. sp; auto; try apply N; try lia.
  - destruct (add_unsigned_spec (bdig y) (bdig x) true) as (r & E & N & V); auto.
    exists r. sp; auto; try apply N; try lia.
  - destruct (add_unsigned_spec (bdig x) (bdig y) false) as (r & E & N & V); auto.
    exists r. sp; auto; try apply N; try lia.
  - destruct (subtract_unsigned_spec (bdig x) (bdig y) false) as (r & E & N & V); auto.
    exists r. sp; auto; try apply N.
Qed.

Lemma equal_digits_spec x : forall y, equal_digits x y = true <-> x = y.
Proof.
  induction x as [|a x IH]; intros [|b y]; cbn [equal_digits]; try (split; [discriminate|congruence]); [tauto|].
  destruct (Z.eqb_spec a b) as [->|]; [rewrite IH; split; congruence|split; [discriminate|congruence]].
Qed.
Lemma norm_inj x y : norm x -> norm y -> bval x = bval y -> x = y.
Proof.
  intros (Hx & Tx & Zx) (Hy & Ty & Zy) E. destruct x as [sx dx], y as [sy dy]; cbn [bdig bneg] in *.
  rewrite !bval_neg in E. pose proof (val_range dx Hx). pose proof (val_range dy Hy).
  assert (P : val dx = val dy -> dx = dy).
  { intros V. apply val_inj; auto. apply Nat.le_antisymm; apply val_lt_length; auto; lia. }
  destruct dx as [|a dx].
  - rewrite (Zx eq_refl) in *. destruct dy as [|b dy]; [rewrite (Zy eq_refl); reflexivity|].
    pose proof (topnz_pos _ Hy Ty ltac:(discriminate)). change (val []) with 0 in E. destruct sy; lia.
  - pose proof (topnz_pos _ Hx Tx ltac:(discriminate)).
    destruct dy as [|b dy]; [change (val []) with 0 in E; destruct sx, sy; lia|].
    pose proof (topnz_pos _ Hy Ty ltac:(discriminate)).
    destruct sx, sy; try lia; f_equal; apply P; lia.
Qed.
Theorem bigint_equal_p_spec x y : norm x -> norm y -> bigint_equal_p x y = true <-> bval x = bval y.
Proof.
  intros Nx Ny. unfold bigint_equal_p. destruct (bzero_p x) eqn:Zx.
  - rewrite (bval_zero x Zx). split.
    + intros Zy. rewrite (bval_zero y Zy). reflexivity.
    + intros E. destruct (bzero_p y) eqn:Zy; auto. apply bzero_p_false in Zy.
      destruct Ny as (Hy & Ty & _). pose proof (topnz_pos _ Hy Ty Zy). unfold bval in E.
      destruct (bneg y); lia.
  - split.
    + rewrite !andb_true_iff. intros [[_ A] B]. apply Bool.eqb_prop in A. apply equal_digits_spec in B.
      unfold bval. rewrite A, B. reflexivity.
    + intros E. apply (norm_inj x y Nx Ny) in E. subst y. rewrite Zx, Bool.eqb_reflx. cbn.
      apply equal_digits_spec. reflexivity.
Qed.
Lemma bval_nonzero x : norm x -> bzero_p x = false -> if bneg x then bval x < 0 else 0 < bval x.
Proof.
  intros (H & T & _) Z. pose proof (topnz_pos _ H T (bzero_p_false _ Z)).
  unfold bval. destruct (bneg x); lia.
Qed.
Theorem bigint_compare_spec x y : norm x -> norm y -> bigint_compare x y = Z.compare (bval x) (bval y).
Proof.
  intros Nx Ny. unfold bigint_compare.
  pose proof (bval_nonzero x Nx) as Px. pose proof (bval_nonzero y Ny) as Py.
  destruct (bzero_p x) eqn:Zx, (bzero_p y) eqn:Zy;
    rewrite ?(bval_zero x Zx), ?(bval_zero y Zy).
  - reflexivity.
  - specialize (Py eq_refl). destruct (bneg y); symmetry; [apply Z.compare_gt_iff|apply Z.compare_lt_iff]; lia.
  - specialize (Px eq_refl). destruct (bneg x); symmetry; [apply Z.compare_lt_iff|apply Z.compare_gt_iff]; lia.
  - specialize (Px eq_refl). specialize (Py eq_refl).
    destruct Nx as (Hx & Tx & _), Ny as (Hy & Ty & _).
    destruct (bneg x) eqn:Sx, (bneg y) eqn:Sy.
    + rewrite compare_unsigned_spec by auto. unfold bval. rewrite Sx, Sy.
      replace (-1 * val (bdig x)) with (- val (bdig x)) by lia.
      replace (-1 * val (bdig y)) with (- val (bdig y)) by lia.
      rewrite <- Z.compare_opp. reflexivity.
    + symmetry; apply Z.compare_lt_iff; lia.
    + symmetry; apply Z.compare_gt_iff; lia.
    + rewrite compare_unsigned_spec by auto. unfold bval. rewrite Sx, Sy, !Z.mul_1_l. reflexivity.
Qed.
Theorem bigint_test_spec x : norm x -> bigint_test x = Z.compare (bval x) 0.
Proof.
  intros Nx. unfold bigint_test. destruct (bzero_p x) eqn:Zx; [rewrite (bval_zero x Zx); reflexivity|].
  pose proof (bval_nonzero x Nx Zx). destruct (bneg x); symmetry; [apply Z.compare_lt_iff|apply Z.compare_gt_iff]; lia.
Qed.

(** ** Multiplication *)

Lemma cons_dig h l : 0 <= h < 32768 -> 0 <= l < 32768 -> dig (h * 32768 + l).
Proof. unfold dig, radix. lia. Qed.

Lemma mul_row_spec ys : forall xh xl carry rs1 rs2,
  0 <= xh < 32768 -> 0 <= xl < 32768 -> dig carry -> digs ys -> digs rs1 -> length rs1 = length ys ->
  exists out c, mul_row xh xl carry ys (rs1 ++ 0 :: rs2) = Some (out ++ c :: rs2)
    /\ digs out /\ dig c /\ length out = length ys
    /\ val out + bp (length ys) * c = val rs1 + (xh * 32768 + xl) * val ys + carry.
Proof.
  induction ys as [|y ys IH]; intros xh xl carry rs1 rs2 Hxh Hxl Hc Hy Hr HL.
  - destruct rs1; [|discriminate]. cbn [app mul_row]. unfold dig in Hc. rewrite radix_eq in Hc.
    rewrite int32_some by lia. exists [], (0 + carry). cbn [app val length]. rewrite bp_0.
    sp; auto; try (rewrite ?radix_eq; lia).
  - destruct rs1 as [|r rs1]; [discriminate|]. cbn in HL. injection HL as HL.
    inv_digs Hy. inv_digs Hr. cbn [app mul_row]. unfold dig in Hc, Hd, Hd0. rewrite radix_eq in *.
    split_hd y. split_hd carry.
    assert (P1 : 0 <= xl * lo <= 32767 * 32767) by nia.
    assert (P2 : 0 <= xh * lo <= 32767 * 32767) by nia.
    assert (Hhi : 0 <= hi < 32768) by lia.
    assert (Hhi0 : 0 <= hi0 < 32768) by lia.
    assert (P3 : 0 <= xl * hi <= 32767 * 32767) by nia.
    assert (P4 : 0 <= xh * hi <= 32767 * 32767) by nia.
    rewrite int32_some by lia.
    set (pl := r + xl * lo + lo0). split_hd pl.
    assert (Hpl : pl = r + xl * lo + lo0) by reflexivity. clearbody pl.
    rewrite int32_some by lia.
    set (ph := xh * lo + xl * hi + hi1 + hi0).
    assert (Hph : ph = xh * lo + xl * hi + hi1 + hi0) by reflexivity. clearbody ph.
    split_hd ph.
    rewrite hd_cons_eq by lia. rewrite int32_some by lia.
    assert (EQ : (lo2 * 32768 + lo1) + 1073741824 * (xh * hi + hi2)
                 = r + (xh * 32768 + xl) * y + carry).
    { replace ((xh * 32768 + xl) * y) with
        (1073741824 * (xh * hi) + 32768 * (xh * lo + xl * hi) + xl * lo) by (subst y; ring). lia. }
    assert (HC : 0 <= xh * hi + hi2 < 1073741824).
    { assert ((xh * 32768 + xl) * y <= 1073741823 * 1073741823) by nia. lia. }
    rewrite int32_some by lia.
    destruct (IH xh xl (xh * hi + hi2) rs1 rs2 Hxh Hxl) as (out & c & E & Ho & Hdc & Hlo & Hv); auto.
    rewrite E. exists (lo2 * 32768 + lo1 :: out), c. sp; auto.
    + apply dig_cons; auto. unfold dig; rewrite radix_eq; lia.
    + cbn; lia.
    + cbn [val length]. rewrite bp_S, radix_eq. clear - EQ Hv.
      replace ((xh * 32768 + xl) * (y + 1073741824 * val ys)) with
        ((xh * 32768 + xl) * y + 1073741824 * ((xh * 32768 + xl) * val ys)) by ring. lia.
Qed.
Lemma mul_loop_spec xs : forall ys rs, digs xs -> digs ys -> digs rs -> length rs = length ys ->
  exists t, mul_loop xs ys (rs ++ repeat 0 (length xs)) = Some t /\ digs t
    /\ length t = (length xs + length ys)%nat /\ val t = val rs + val xs * val ys.
Proof.
  induction xs as [|x xs IH]; intros ys rs Hx Hy Hr HL.
  - cbn. rewrite app_nil_r. exists rs. sp; auto; lia.
  - inv_digs Hx. cbn [length repeat mul_loop]. unfold dig in Hd. rewrite radix_eq in Hd.
    split_hd x.
    destruct (mul_row_spec ys hi lo 0 rs (repeat 0 (length xs))) as (out & c & E & Ho & Hc & Hlo & Hv);
      auto; try lia. { unfold dig, radix; lia. }
    rewrite E. destruct (out ++ [c]) as [|d rest] eqn:Eoc; [destruct out; discriminate|].
    replace (out ++ c :: repeat 0 (length xs)) with ((out ++ [c]) ++ repeat 0 (length xs))
      by (rewrite <- app_assoc; reflexivity).
    rewrite Eoc. cbn [app].
    assert (Hdr : digs (d :: rest)) by (rewrite <- Eoc; apply digs_app; split; auto; constructor; auto).
    assert (Hlr : length (d :: rest) = S (length ys)) by (rewrite <- Eoc, app_length; cbn; lia).
    assert (Hvr : val (d :: rest) = val rs + (hi * 32768 + lo) * val ys + 0).
    { rewrite <- Eoc, val_app, Hlo. cbn [val]. rewrite Z.mul_0_r, Z.add_0_r. exact Hv. }
    inversion Hdr as [|? ? Hdd Hrest]; subst. cbn in Hlr. injection Hlr as Hlr.
    destruct (IH ys rest Hx Hy Hrest Hlr) as (t & E' & Ht & Hlt & Hvt).
    rewrite E'. exists (d :: t). sp.
    + apply dig_cons; auto.
    + cbn; lia.
    + cbn [val] in Hvr |- *. rewrite Hvt. rewrite radix_eq in *. lia.
Qed.
Lemma digs_repeat0 n : digs (repeat 0 n). Proof. apply digs_repeat. Qed.
Lemma multiply_unsigned_spec x y n : digs x -> digs y -> x <> [] -> y <> [] ->
  exists r, multiply_unsigned x y n = Some r /\ norm r
    /\ bval r = if n then - (val x * val y) else val x * val y.
Proof.
  assert (W : forall x y, digs x -> digs y -> x <> [] ->
    exists r, (do r <- mul_loop x y (repeat 0 (length x + length y)); Some (trim (BI n r))) = Some r
      /\ norm r /\ bval r = if n then - (val x * val y) else val x * val y).
  { clear x y. intros x y Hx Hy Nx.
    destruct (mul_loop_spec x y (repeat 0 (length y)) Hx Hy (digs_repeat _) (repeat_length _ _))
      as (t & E & Ht & Hl & Hv).
    rewrite <- repeat_app, Nat.add_comm in E. rewrite E. eexists; split; [reflexivity|].
    destruct (trim_spec n t Ht) as [N V].
    { destruct t; [|discriminate]. destruct x; [congruence|cbn in Hl; lia]. }
    split; auto. rewrite V, Hv, val_repeat. destruct n; lia. }
  intros Hx Hy Nx Ny. unfold multiply_unsigned. destruct (Nat.ltb_spec (length x) (length y)).
  - destruct (W y x Hy Hx Ny) as (r & E & N & V). exists r. rewrite V. sp; auto; try apply N.
    destruct n; lia.
  - apply W; auto.
Qed.

Lemma scale_up_loop_spec ds : forall f c, digs ds -> 1 < f < 32768 -> 0 <= c < 32768 ->
  val ds * f + c < bp (length ds) ->
  exists t, scale_up_loop ds f c = Some t /\ digs t /\ length t = length ds /\ val t = val ds * f + c.
Proof.
  induction ds as [|d ds IH]; intros f c HD Hf Hc HB; cbn [scale_up_loop].
  - cbn [val length] in HB. rewrite bp_0 in HB. assert (c = 0) by lia. subst. exists []. cbn. sp; auto.
  - inv_digs HD. unfold dig in Hd. rewrite radix_eq in Hd. split_hd d.
    assert (E1 : hd_low c = c) by (rewrite hd_low_eq; apply Z.mod_small; lia).
    assert (E2 : hd_high c = 0) by (rewrite hd_high_eq; apply Z.div_small; lia).
    rewrite E1, E2. assert (P1 : 0 <= f * lo <= 32767 * 32767) by nia.
    assert (Hhi : 0 <= hi < 32768) by lia.
    assert (P2 : 0 <= f * hi <= 32767 * 32767) by nia.
    rewrite int32_some by lia.
    set (pl := f * lo + c). assert (Hpl : pl = f * lo + c) by reflexivity. clearbody pl. split_hd pl.
    rewrite int32_some by lia.
    set (ph := f * hi + hi0 + 0). assert (Hph : ph = f * hi + hi0 + 0) by reflexivity. clearbody ph.
    split_hd ph.
    rewrite hd_cons_eq by lia. rewrite int32_some by lia.
    assert (EQ : (lo1 * 32768 + lo0) + 1073741824 * hi1 = d * f + c).
    { replace (d * f) with (32768 * (f * hi) + f * lo) by (subst d; ring). lia. }
    cbn [val length] in HB. rewrite bp_S, radix_eq in HB.
    assert (HB' : val ds * f + hi1 < bp (length ds)).
    { replace ((d + 1073741824 * val ds) * f) with (d * f + 1073741824 * (val ds * f)) in HB by ring. lia. }
    destruct (IH f hi1 HD Hf ltac:(lia) HB') as (t & E & Ht & Hl & Hv).
    rewrite E. exists (lo1 * 32768 + lo0 :: t). sp.
    + apply dig_cons; auto. apply cons_dig; lia.
    + cbn; lia.
    + cbn [val]. rewrite radix_eq, Hv.
      replace ((d + 1073741824 * val ds) * f) with (d * f + 1073741824 * (val ds * f)) by ring. lia.
Qed.
Lemma scale_up_spec ds f : digs ds -> 1 < f < 32768 -> val ds * f < bp (length ds) ->
  exists t, scale_up ds f = Some t /\ digs t /\ length t = length ds /\ val t = val ds * f.
Proof.
  intros HD Hf HB. unfold scale_up, radix_root.
  destruct (Z.ltb_spec 1 f); [|lia]. destruct (Z.ltb_spec f 32768); [|lia]. cbn [andb].
  destruct (scale_up_loop_spec ds f 0 HD Hf ltac:(lia) ltac:(lia)) as (t & E & Ht & Hl & Hv).
  exists t. sp; auto. lia.
Qed.
Lemma multiply_small_factor_spec x f n : digs x -> 1 < f < 32768 ->
  exists r, multiply_small_factor x f n = Some r /\ norm r
    /\ bval r = if n then - (val x * f) else val x * f.
Proof.
  intros Hx Hf. unfold multiply_small_factor.
  destruct (scale_up_spec (x ++ [0]) f) as (t & E & Ht & Hl & Hv); auto.
  - apply digs_app; split; auto. constructor; [unfold dig, radix; lia|constructor].
  - rewrite val_app, app_length. cbn [val length]. rewrite bp_add. change (bp 1) with radix.
    pose proof (val_range x Hx). rewrite radix_eq. nia.
  - rewrite E. eexists; split; [reflexivity|]. destruct (trim_spec n t Ht) as [N V].
    { destruct t; [|discriminate]. rewrite app_length in Hl. cbn in Hl. lia. }
    split; auto. rewrite V, Hv, val_app. cbn [val]. destruct n; lia.
Qed.

Theorem bigint_multiply_spec x y : norm x -> norm y ->
  exists r, bigint_multiply x y = Some r /\ norm r /\ bval r = bval x * bval y.
Proof.
  intros Nx Ny. unfold bigint_multiply, bcopy.
  destruct (bzero_p x) eqn:Zx; [exists x; rewrite (bval_zero x Zx); sp; auto; try apply Nx; lia|].
  destruct (bzero_p y) eqn:Zy; [exists y; rewrite (bval_zero y Zy); sp; auto; try apply Ny; lia|].
  set (n := if bneg x then negb (bneg y) else bneg y).
  assert (HS : bval x * bval y = if n then - (val (bdig x) * val (bdig y)) else val (bdig x) * val (bdig y)).
  { unfold bval, n. destruct (bneg x), (bneg y); cbn [negb]; lia. }
  rewrite HS. clearbody n.
  pose proof (bzero_p_false _ Zx) as Ex. pose proof (bzero_p_false _ Zy) as Ey.
  pose proof Nx as (Hx & Tx & _). pose proof Ny as (Hy & Ty & _).
  assert (G : exists r, match bdig y with
      | [digit] =>
        if digit =? 1 then Some (maybe_new_sign x n)
        else if digit <? radix_root then multiply_small_factor (bdig x) digit n
        else multiply_unsigned (bdig x) (bdig y) n
      | _ => multiply_unsigned (bdig x) (bdig y) n
      end = Some r /\ norm r /\
      bval r = if n then - (val (bdig x) * val (bdig y)) else val (bdig x) * val (bdig y)).
  { pose proof (multiply_unsigned_spec (bdig x) (bdig y) n Hx Hy Ex Ey) as M.
    destruct (bdig y) as [|d [|? ?]] eqn:Edy; try exact M.
    destruct Ty as [Ty|Ty]; [discriminate|]. cbn in Ty. inversion Hy as [|? ? Hd _]; subst. unfold dig in Hd.
    cbn [val]. replace (d + radix * 0) with d by lia. cbn [val] in M. replace (d + radix * 0) with d in M by lia.
    destruct (Z.eqb_spec d 1) as [->|].
    - eexists; split; [reflexivity|]. unfold maybe_new_sign. split; [apply norm_sign; auto|].
      rewrite bval_neg. destruct n; lia.
    - unfold radix_root. destruct (Z.ltb_spec d 32768); auto.
      apply multiply_small_factor_spec; auto; lia. }
  destruct (bdig x) as [|d [|? ?]] eqn:Edx; try exact G.
  destruct Tx as [Tx|Tx]; [discriminate|]. cbn in Tx. inversion Hx as [|? ? Hd _]; subst. unfold dig in Hd.
  cbn [val] in *. replace (d + radix * 0) with d in * by lia.
  destruct (Z.eqb_spec d 1) as [->|].
  - eexists; split; [reflexivity|]. unfold maybe_new_sign. split; [apply norm_sign; auto|].
    rewrite bval_neg. destruct n; lia.
  - unfold radix_root in *. destruct (Z.ltb_spec d 32768); auto.
    destruct (multiply_small_factor_spec (bdig y) d n Hy ltac:(lia)) as (r & E & N & V).
    exists r. rewrite V. sp; auto; try apply N. destruct n; lia.
Qed.

(** * Proofs about the table operations of HashopModel. *)
From Coq Require Import QArith Lia Permutation Sorting.Sorted List.
From Verif Require Import ValueModel ValueProofs SortModel SortProofs ChoicesModel SlotmapModel
  ChoicesProofs ChoicesProofs2 ChoicesProofs3 TableProofs SlotmapProofs HashtableModel HashtableProofs HashopModel.
From Verif Require BigintProofs NumbersProofs NumbersProofs2.
Module BP := BigintProofs.
Module AP := NumbersProofs.
Module AP2 := NumbersProofs2.
Import ListNotations.
Local Open Scope nat_scope.

(** ** Exact numbers: the value of a word or heap object.  Fixnums are words with tag 2
    holding an integer of magnitude below 2^61 in two's complement; heap integers lie
    outside the fixnum range (but may be its two ends); rationals are in lowest terms. *)
Inductive number : val -> Q -> Prop :=
| n_fix z w q : (-2305843009213693951 <= z <= 2305843009213693951)%Z ->
    Z.of_N w = ((4 * z + 2) mod 2 ^ 64)%Z -> (q == inject_Z z)%Q -> number (VAtom w) q
| n_big z q : (z <= -2305843009213693951 \/ 2305843009213693951 <= z)%Z -> (q == inject_Z z)%Q ->
    number (VNum (NReal (RInt z))) q
| n_rat n d q : (1 < d)%Z -> Z.gcd n d = 1%Z -> (q == inject_Z n / inject_Z d)%Q ->
    number (VNum (NReal (RRat n d))) q.
Definition is_number (v : val) : Prop := (exists w, v = VAtom w /\ (w mod 4 = 2)%N) \/ exists n, v = VNum n.
Definition sound (v : val) : Prop := is_number v -> exists q, number v q.

Lemma number_eq v p q : number v p -> (q == p)%Q -> number v q.
Proof. intros H E. inversion H; subst; econstructor; eauto; now rewrite E. Qed.
Lemma numeric_iff v : numeric v = true <-> is_number v.
Proof.
  unfold numeric, is_number, fixnump. destruct v; cbn [orb]; try (split; [discriminate|intros [(w' & E & _)|[n' E]]; discriminate]).
  - rewrite Bool.orb_false_r, N.eqb_eq. split; [left; eauto|]. intros [(w' & [= ->] & E)|[n' E]]; [auto|discriminate].
  - split; eauto.
Qed.
Lemma fix_tag z w : Z.of_N w = ((4 * z + 2) mod 2 ^ 64)%Z -> (w mod 4 = 2)%N.
Proof.
  intros E. apply N2Z.inj. rewrite N2Z.inj_mod, E. change (2 ^ 64)%Z with (4 * 4611686018427387904)%Z.
  pose proof (Z.div_mod (4 * z + 2) (4 * 4611686018427387904) ltac:(lia)) as D.
  set (q := ((4 * z + 2) / (4 * 4611686018427387904))%Z) in *.
  set (r := ((4 * z + 2) mod (4 * 4611686018427387904))%Z) in *.
  replace r with (2 + (z - 4611686018427387904 * q) * 4)%Z by lia. change (Z.of_N 4) with 4%Z. now rewrite Z.mod_add.
Qed.
Lemma word_fix_eq z w : (-2305843009213693952 <= z <= 2305843009213693951)%Z -> Z.of_N w = ((4 * z + 2) mod 2 ^ 64)%Z ->
  word_fix w = z.
Proof.
  intros Hz E. unfold word_fix.
  destruct (Z.ltb_spec z 0).
  - assert (E2 : Z.of_N w = (4 * z + 2 + 2 ^ 64)%Z).
    { rewrite E. symmetry. apply (Z.mod_unique _ _ (-1)); lia. }
    destruct (N.ltb_spec w (2 ^ 63)); [lia|]. symmetry. apply (Z.div_unique _ _ _ 2); lia.
  - rewrite Z.mod_small in E by lia. destruct (N.ltb_spec w (2 ^ 63)); [|lia]. symmetry. apply (Z.div_unique _ _ _ 2); lia.
Qed.
Lemma number_is v q : number v q -> is_number v.
Proof.
  intros H. inversion H; subst; [left|right|right]; eauto. eexists. split; [reflexivity|]. eapply fix_tag; eauto.
Qed.
Lemma number_clean v q : number v q -> elt_ok v /\ clean v.
Proof.
  intros H. inversion H; subst.
  - pose proof (fix_tag _ _ H1) as T. split; [split; [split; reflexivity|]|split].
    + split; [intros [= ->]; discriminate|]. split; [intros [= ->]; discriminate|]. split; [intros [= ->]; discriminate|discriminate].
    + cbn. now rewrite T.
    + intros [= ->]. discriminate.
  - split; [split; [split; reflexivity|]|split; [reflexivity|discriminate]]. split; [|split; [|split]]; discriminate.
  - split; [split|split; [reflexivity|discriminate]]; [|split; [|split; [|split]]; discriminate]. split; [|reflexivity].
    cbn. apply Bool.andb_true_iff. split; [now apply Z.ltb_lt|now apply Z.eqb_eq].
Qed.

(** ** Conversions *)
Lemma z_of_digits_val ds : z_of_digits ds = BP.val ds.
Proof. induction ds as [|d t IH]; [reflexivity|]. cbn [z_of_digits BP.val]. now rewrite IH. Qed.
Lemma z_of_big_val b : z_of_big b = BP.bval b.
Proof. unfold z_of_big, BP.bval. rewrite z_of_digits_val. destruct (B.bneg b); lia. Qed.
Lemma z_of_int_val i : z_of_int i = AP.ival i.
Proof. destruct i; [reflexivity|apply z_of_big_val]. Qed.
Lemma z_digits_spec fuel : forall z, (0 <= z < 2 ^ Z.of_nat fuel)%Z ->
  BP.digs (z_digits fuel z) /\ BP.val (z_digits fuel z) = z /\ BP.topnz (z_digits fuel z).
Proof.
  induction fuel as [|f IH]; intros z Hz.
  - cbn in Hz. assert (z = 0)%Z by lia. subst. cbn [z_digits]. split; [constructor|]. split; [reflexivity|now left].
  - cbn [z_digits]. destruct (Z.eqb_spec z 0) as [->|Hn]; [split; [constructor|]; split; [reflexivity|now left]|].
    assert (Hr : (0 < B.radix)%Z) by reflexivity.
    pose proof (Z.mod_pos_bound z B.radix Hr) as Mb. pose proof (Z.div_mod z B.radix ltac:(lia)) as D.
    destruct (IH (z / B.radix)%Z) as (D1 & D2 & D3).
    { split; [apply Z.div_pos; lia|]. apply Z.div_lt_upper_bound; [lia|]. rewrite Nat2Z.inj_succ, Z.pow_succ_r in Hz by lia.
      unfold B.radix. lia. }
    split; [constructor; [exact Mb|exact D1]|]. split; [cbn [BP.val]; rewrite D2; lia|]. right.
    destruct (z_digits f (z / B.radix)) as [|d t] eqn:E.
    + cbn [BP.val] in D2. cbn [last]. rewrite <- D2 in D. lia.
    + change (last ((z mod B.radix)%Z :: d :: t) 0%Z) with (last (d :: t) 0%Z). destruct D3; [discriminate|auto].
Qed.
Lemma big_of_z_spec z : BP.norm (big_of_z z) /\ BP.bval (big_of_z z) = z.
Proof.
  unfold big_of_z. destruct (z_digits_spec (S (Z.to_nat (Z.log2 (Z.abs z)))) (Z.abs z)) as (D1 & D2 & D3).
  { split; [lia|]. rewrite Nat2Z.inj_succ, Z2Nat.id by apply Z.log2_nonneg.
    destruct (Z.eq_dec (Z.abs z) 0) as [->|]; [reflexivity|]. apply Z.log2_spec. lia. }
  set (ds := z_digits _ _) in *. split.
  - split; [exact D1|]. split; [exact D3|]. cbn [B.bdig B.bneg]. intros E. rewrite E in D2. cbn in D2. apply Z.ltb_ge. lia.
  - unfold BP.bval. cbn [B.bneg B.bdig]. rewrite D2. destruct (Z.ltb_spec z 0); lia.
Qed.
Lemma int_of_z_spec z : AP.icanon (int_of_z z) /\ AP.ival (int_of_z z) = z.
Proof.
  unfold int_of_z. destruct (Z.leb_spec A.min_fixnum z); destruct (Z.leb_spec z A.max_fixnum); cbn [andb].
  1: split; [split; auto|reflexivity].
  all: destruct (big_of_z_spec z) as [N V]; split; [split; [exact N|]|exact V]; rewrite V; unfold AP.fixr; lia.
Qed.
Lemma number_real v q : number v q -> exists x, real_of v = Some x /\ AP.rwf x /\ (AP.rq x == q)%Q.
Proof.
  intros H. inversion H; subst.
  - unfold real_of, fixnump. rewrite (fix_tag _ _ H1). cbn [N.eqb Pos.eqb]. eexists. split; [reflexivity|].
    rewrite (word_fix_eq z w) by (auto; lia). split; [cbn; unfold AP.fixr, A.min_fixnum, A.max_fixnum; lia|]. cbn. now symmetry.
  - cbn [real_of]. eexists. split; [reflexivity|]. destruct (big_of_z_spec z) as [N V]. split.
    + cbn. split; [exact N|]. rewrite V. unfold AP.fixr, AP.edge, A.min_fixnum, A.max_fixnum. lia.
    + cbn. rewrite V. now symmetry.
  - cbn [real_of]. eexists. split; [reflexivity|].
    destruct (int_of_z_spec n) as [Cn Vn]. destruct (int_of_z_spec d) as [Cd Vd]. split.
    + cbn [AP.rwf AP.rcanon]. rewrite Vn, Vd. auto.
    + cbn [AP.rq]. unfold AP.frac. rewrite Vn, Vd. now symmetry.
Qed.
Lemma fix_word_number z q : (-2305843009213693951 <= z <= 2305843009213693951)%Z -> (q == inject_Z z)%Q ->
  number (fix_word z) q.
Proof.
  intros Hz E. eapply n_fix; eauto. rewrite Z2N.id; auto. apply Z.mod_pos_bound. reflexivity.
Qed.
Lemma real_number r : AP.rwf r -> number (of_real r) (AP.rq r).
Proof.
  destruct r as [[z|b]|n d]; cbn [AP.rwf AP.inear AP.rcanon of_real AP.rq AP.ival].
  - unfold AP.fixr, A.min_fixnum, A.max_fixnum. intros H. apply fix_word_number; [auto|reflexivity].
  - intros [N E]. rewrite z_of_big_val. apply n_big; [|reflexivity].
    unfold AP.fixr, AP.edge, A.min_fixnum, A.max_fixnum in E. lia.
  - intros (A1 & A2 & A3 & A4). rewrite !z_of_int_val. now apply n_rat.
Qed.

(** ** One operand *)
Lemma fix_of_number v q z : number v q -> fix_of v = Some z -> (q == inject_Z z)%Q /\ (-2305843009213693951 <= z <= 2305843009213693951)%Z.
Proof.
  intros H E. inversion H; subst; try discriminate. unfold fix_of in E. destruct (fixnump (VAtom w)); [|discriminate].
  injection E as <-. rewrite (word_fix_eq z0 w) by (auto; lia). auto.
Qed.
Lemma fixnump_fix_of v : fixnump v = match fix_of v with Some _ => true | None => false end.
Proof. destruct v; try reflexivity. cbn. now destruct (w mod 4 =? 2)%N. Qed.
Lemma int_result s q : (-9223372036854775807 <= s <= 9223372036854775807)%Z -> (q == inject_Z s)%Q ->
  exists n, (do s' <- B.int64 s; do i <- A.kno_int s'; Some (of_real (A.RI i))) = Some n /\ number n q.
Proof.
  intros Hs Eq. unfold B.int64. destruct (Z.leb_spec (-9223372036854775808) s); [|lia].
  destruct (Z.leb_spec s 9223372036854775807); [|lia]. cbn [andb].
  destruct (AP.kno_int_spec s Hs) as (i & -> & C & V). eexists. split; [reflexivity|].
  apply (number_eq _ (AP.rq (A.RI i))); [apply real_number; now apply AP.icanon_near|]. cbn [AP.rq]. now rewrite V.
Qed.
Lemma arith_spec f (comb : Q -> Q -> Q) c p v q : Proper (Qeq ==> Qeq ==> Qeq) comb ->
  (forall x y, AP.rok x -> AP.rok y -> AP.real_res (f x y) (comb (AP.rq x) (AP.rq y)) (AP.rwf x /\ AP.rwf y)) ->
  number c p -> number v q -> exists n, arith f c v = Some n /\ number n (comb p q).
Proof.
  intros Pc Hf Hc Hv. destruct (number_real _ _ Hc) as (x & Ex & Wx & Qx). destruct (number_real _ _ Hv) as (y & Ey & Wy & Qy).
  unfold arith. rewrite Ex, Ey. destruct (Hf x y (AP.rwf_ok _ Wx) (AP.rwf_ok _ Wy)) as (r & -> & _ & Qr & Wr).
  eexists. split; [reflexivity|]. apply (number_eq _ (AP.rq r)); [apply real_number; auto|]. rewrite Qr, Qx, Qy. reflexivity.
Qed.
Lemma inc_one_spec c p v q : number c p -> number v q -> exists n, inc_one c v = Some n /\ number n (p + q).
Proof.
  intros Hc Hv. pose proof (arith_spec A.rplus Qplus c p v q _ AP2.rplus_spec Hc Hv) as G. unfold inc_one.
  destruct (fix_of c) as [zc|] eqn:Ec; auto. destruct (fix_of v) as [zv|] eqn:Ev; auto.
  destruct (fix_of_number _ _ _ Hc Ec) as [Qc Rc]. destruct (fix_of_number _ _ _ Hv Ev) as [Qv Rv].
  apply int_result; [lia|]. rewrite Qc, Qv, inject_Z_plus. reflexivity.
Qed.
Lemma mul_one_spec c p v q : number c p -> number v q -> exists n, mul_one c v = Some n /\ number n (p * q).
Proof.
  intros Hc Hv. pose proof (arith_spec A.rmultiply Qmult c p v q _ AP2.rmultiply_spec Hc Hv) as G. unfold mul_one.
  destruct (fix_of c) as [zc|] eqn:Ec; auto. destruct (fix_of v) as [zv|] eqn:Ev; auto.
  destruct (fix_of_number _ _ _ Hc Ec) as [Qc Rc]. destruct (fix_of_number _ _ _ Hv Ev) as [Qv Rv].
  destruct (intp zc && intp zv) eqn:Ei; auto. unfold intp in Ei. apply Bool.andb_true_iff in Ei as [I1 I2].
  apply Bool.andb_true_iff in I1 as [I1 I1']. apply Bool.andb_true_iff in I2 as [I2 I2'].
  apply Z.leb_le in I1, I1', I2, I2'. apply int_result; [nia|]. rewrite Qc, Qv, inject_Z_mult. reflexivity.
Qed.
Lemma op_loop_one f neutral (comb : Q -> Q -> Q) c p v q :
  (forall c p v q, number c p -> number v q -> exists n, f c v = Some n /\ number n (comb p q)) ->
  (forall p, comb p (inject_Z neutral) == p)%Q -> Proper (Qeq ==> Qeq ==> Qeq) comb ->
  number c p -> number v q ->
  exists s, op_loop f neutral c false (Simple (SVal c)) [v] = Some (1%Z, Simple (SVal s)) /\ number s (comb p q).
Proof.
  intros Hf Hn Pc Hc Hv. cbn [op_loop]. replace (numeric v) with true by (symmetry; apply numeric_iff; eapply number_is; eauto).
  destruct (Hf _ _ _ _ Hc Hv) as (n & -> & Nn).
  destruct (negb (fixnump c) && _)%bool eqn:E.
  - exists c. split; [reflexivity|]. apply Bool.andb_true_iff in E as [_ E]. destruct (fix_of v) as [z|] eqn:Ez; [|discriminate].
    apply Z.eqb_eq in E. subst z. destruct (fix_of_number _ _ _ Hv Ez) as [Qv _]. apply (number_eq _ p); auto. now rewrite Qv, Hn.
  - exists n. auto.
Qed.
Lemma op_loop_bad f neutral c v new : ~ is_number v -> op_loop f neutral c false new [v] = Some ((-1)%Z, new).
Proof.
  intros Hn. cbn [op_loop]. destruct (numeric v) eqn:E; auto. exfalso. now apply Hn, numeric_iff.
Qed.
(** kno_numcompare by value. *)
Lemma numcompare_value c p v q : number c p -> number v q ->
  exists x y, real_of v = Some x /\ real_of c = Some y /\ A.numcompare x y = Some (AP.csign (q ?= p)%Q).
Proof.
  intros Hc Hv. destruct (number_real _ _ Hc) as (y & Ey & Wy & Qy). destruct (number_real _ _ Hv) as (x & Ex & Wx & Qx).
  exists x, y. split; auto. split; auto. rewrite AP2.numcompare_spec by now apply AP.rwf_ok. now rewrite Qx, Qy.
Qed.

(** ** Sets of values *)
Definition none (P : val -> Prop) : Prop := forall y, ~ P y.
Definition only (P : val -> Prop) (c : val) : Prop := forall y, P y <-> y = c.
Definition several (P : val -> Prop) : Prop := exists x y, P x /\ P y /\ x <> y.
Lemma vgood_cases v P : vgood v P ->
  (v = EMPTYV /\ none P) \/
  (exists c, v = Simple (SVal c) /\ elt_ok c /\ only P c) \/
  (several P /\ forall c, v <> Simple (SVal c)).
Proof.
  intros G. pose proof G as (V1 & V2 & V3). destruct v as [[c|a l]|p].
  - destruct V1 as [->|V1].
    + left. split; auto. unfold none. now apply (vgood_empty _ _ G).
    + right; left. exists c. split; auto. split; auto. intros y. rewrite <- V3. cbn [lelts]. rewrite selts_elt by auto.
      cbn. split; [intros [|[]]; auto|auto].
  - right; right. split; [|discriminate]. destruct V1 as (F & S & L & _). destruct l as [|x [|y l]]; cbn in L; try lia.
    exists x, y. split; [apply V3; cbn; auto|]. split; [apply V3; cbn; auto|]. intros ->.
    inversion S as [|? ? _ G1]; subst. inversion G1; subst. inversion F; subst. now apply (ChoicesProofs.lt_irrefl y); auto.
  - right; right. split; [|discriminate]. destruct V2 as (x & y & Hx & Hy & N). exists x, y. split; [now apply V3|]. split; [now apply V3|auto].
Qed.
Lemma vgood_one c : elt_ok c -> vgood (Simple (SVal c)) (eq c).
Proof.
  intros H. split; [now right|]. split; [exact I|]. intros y. cbn [lelts]. rewrite selts_elt by auto. cbn. tauto.
Qed.

(** ** Finding or making the entry, and writing it *)
Section Entry.
Variable hc : hcfg.
Lemma insert_write bs k : bok hc bs -> bs <> [] -> Forall vp (keys_of (concat bs)) -> NoDup (keys_of (concat bs)) -> vp k ->
  exists o i b inc cur, hashvec_insert hc k bs = Some (o, i, b, inc) /\ value_in b o i = Some cur /\
    (In (k, cur) (concat bs) /\ inc = 0%N \/ ~ In k (keys_of (concat bs)) /\ cur = EMPTYV /\ inc = 1%N) /\
    forall new, exists bs', write_in b o i new = Some bs' /\ upd (concat bs) k (Some new) (concat bs') /\ bok hc bs' /\
      length bs' = length bs /\ N.of_nat (length (concat bs')) = (N.of_nat (length (concat bs)) + inc)%N.
Proof.
  intros B Hne F N Vk.
  assert (G : forall new, exists bs' inc cur, modify hc bs k (fun _ => Some new) = Some (bs', inc) /\
    (In (k, cur) (concat bs) /\ inc = 0%N \/ ~ In k (keys_of (concat bs)) /\ cur = EMPTYV /\ inc = 1%N) /\
    upd (concat bs) k (Some new) (concat bs') /\ bok hc bs' /\ length bs' = length bs /\
    N.of_nat (length (concat bs')) = (N.of_nat (length (concat bs)) + inc)%N).
  { intros new. destruct (modify_spec hc bs k (fun _ => Some new) B Hne F N Vk ltac:(eauto))
      as (bs' & inc & cur & n' & E & [= <-] & C & U & B' & L & Len). exists bs', inc, cur. auto 7. }
  unfold modify in G.
  destruct (hashvec_insert_spec hc k bs B Hne F Vk) as [(j & b & v & E & Eb & En)|(Hn & j & b & E & Eb & Hj & Hs)]; rewrite E in *.
  - eexists _, _, _, _, v. split; [reflexivity|]. split; [unfold value_in, value_at; now rewrite Eb, En|].
    split; [left; split; auto; apply in_concat; exists b; split; eapply nth_error_In; eauto|].
    intros new. destruct (G new) as (bs' & inc & cur & E' & _ & U & B' & L & Len).
    destruct (value_in bs _ j); [|discriminate]. destruct (write_in bs _ j new) as [bs2|]; [|discriminate].
    injection E' as -> <-. eauto 7.
  - eexists _, _, _, _, EMPTYV. split; [reflexivity|].
    assert (L0 : offset hc k bs < length bs) by (apply nth_error_Some; congruence).
    split; [unfold value_in; rewrite nth_set_eq by auto; unfold value_at; now rewrite nth_insert by auto|].
    split; [right; auto|].
    intros new. destruct (G new) as (bs' & inc & cur & E' & _ & U & B' & L & Len).
    destruct (value_in _ _ j); [|discriminate]. destruct (write_in _ _ j new) as [bs2|]; [|discriminate].
    injection E' as -> <-. eauto 7.
Qed.
End Entry.

(** ** The operation on the table, for any description [S] of code and effect *)
Section Op.
Variable hc : hcfg.
Variable cf : config.
Hypothesis Hcf : cfg_ok cf.
Hypothesis Hsz : sized hc.
Variables (ht : hashtable) (m : amap).
Hypothesis H : ht_ok hc ht m.
Let l := concat (buckets ht).
(** What [op_value] did to the entry: kept it, or stored a set. *)
Definition effect (k : val) (cur new : lv) (m' : amap) : Prop :=
  (new = cur /\ In (k, cur) l /\ m' = m) \/
  (exists P, m' = a_store m k P /\ vgood new P /\ forall y, P y -> clean y).
Lemma R_effect k cur new m' l' : key_ok k -> effect k cur new m' -> upd l k (Some new) l' -> R l' m'.
Proof.
  intros Hk [(-> & Hin & ->)|(P & -> & G & Cl)] U; pose proof (ho_R _ _ _ H) as HR.
  - apply (R_upd l m k (Some cur) l'); auto; try tauto. split; [apply (r_pres _ _ HR); eapply keys_in; eauto|].
    split; [now apply (r_cont _ _ HR)|]. intros y Hy. now apply (r_sub _ _ HR) in Hy.
  - now apply (R_store l m k new P).
Qed.
Lemma op_core op k value (S : Z -> amap -> Prop) : key_ok k -> trouble value = false -> ht_ro ht = false ->
  (lemptyp value = true -> ignores_empty op = true -> S 0%Z m) ->
  (needs_key op = true -> ~ In k (keys_of l) -> S 0%Z m) ->
  (forall cur, (lemptyp value && ignores_empty op = false)%bool ->
     In (k, cur) l \/ (needs_key op = false /\ ~ In k (keys_of l) /\ cur = EMPTYV) ->
     exists c new m', op_value cf op cur value = Some (c, new) /\ S c m' /\ effect k cur new m') ->
  exists c ht' m', do_hashtable_op hc cf ht op k value = Some (c, ht') /\ S c m' /\ ht_ok hc ht' m' /\ ht_ro ht' = ht_ro ht /\
    h_frame ht k ht' /\ (n_keys ht' <= n_keys ht + 1)%N.
Proof.
  intros Hk T Hro He Hn Hv. pose proof (ho_R _ _ _ H) as HR. unfold do_hashtable_op.
  destruct (key_guard k Hk) as [-> ->]. rewrite T, Hro.
  destruct (lemptyp value && ignores_empty op)%bool eqn:Ee.
  { apply Bool.andb_true_iff in Ee as [E1 E2]. exists 0%Z, ht, m. split; [reflexivity|]. split; [auto|]. split; [exact H|].
    split; [auto|]. split; [intros ? ?; tauto|lia]. }
  destruct (needs_key op) eqn:En.
  - destruct (N.eqb_spec (n_keys ht) 0) as [Z|Z].
    { exists 0%Z, ht, m. split; [reflexivity|]. split; [apply Hn; auto; now apply (h_empty hc ht m H)|]. split; [exact H|].
      split; [auto|]. split; [intros ? ?; tauto|lia]. }
    destruct (h_lookup hc ht m H k) as [(j & b & v & -> & Eb & Ej & Hin)|(-> & Hni)]; [apply Hk|auto| |].
    + unfold value_in, value_at. rewrite Eb, Ej. cbn [snd].
      destruct (Hv v eq_refl (or_introl Hin)) as (c & new & m' & -> & Sc & Ef).
      destruct (h_write hc ht m H k b j v new m' Hk Eb Ej) as (bs' & -> & A1 & A2 & A3).
      { intros l' U. eapply R_effect; eauto. }
      rewrite Hro in *. eexists _, _, m'. split; [reflexivity|]. split; [auto|]. split; [exact A1|]. split; [reflexivity|]. split; [exact A2|lia].
    + exists 0%Z, ht, m. split; [reflexivity|]. split; [now apply Hn|]. split; [exact H|].
      split; [auto|]. split; [intros ? ?; tauto|lia].
  - destruct (ensure_spec hc ht m Hsz H) as (H0 & Hnb & Ero & Enk & Ec). set (ht0 := ensure hc ht) in *.
    pose proof (ho_R _ _ _ H0) as HR0.
    destruct (insert_write hc (buckets ht0) k (ho_bok _ _ _ H0) Hnb (R_vp _ _ HR0) (r_nodup _ _ HR0)) as
      (o & i & b & inc & cur & -> & -> & C & W); [apply Hk|]. rewrite Ec in C.
    destruct (Hv cur eq_refl) as (c & new & m' & -> & Sc & Ef).
    { destruct C as [[C _]|(C1 & C2 & _)]; auto. }
    destruct (W new) as (bs' & -> & U & B & L & Len). rewrite Ec in U.
    eexists _, _, m'. split; [reflexivity|]. split; [auto|]. split; [|split; [cbn; congruence|split]].
    + constructor; cbn [buckets n_keys]; auto.
      * eapply R_effect; eauto.
      * now rewrite Len, (ho_count _ _ _ H0).
    + intros k' v' Hne. cbn [buckets]. now apply U.
    + cbn [n_keys]. destruct C as [[_ ->]|(_ & _ & ->)]; lia.
Qed.
Lemma op_core' op k value c ht1 m1 :
  (n_keys ht < 2 ^ 28)%N -> key_ok k -> trouble value = false ->
  do_hashtable_op hc cf ht op k value = Some (c, ht1) -> ht_ok hc ht1 m1 -> h_frame ht k ht1 -> (n_keys ht1 <= n_keys ht + 1)%N ->
  exists ht2, hashtable_op hc cf ht op k value = Some (c, ht2) /\ ht_ok hc ht2 m1 /\ ht_ro ht2 = ht_ro ht1 /\
    h_frame ht k ht2 /\ (n_keys ht2 <= n_keys ht + 1)%N.
Proof.
  intros Hb Hk T E H1 F L. unfold hashtable_op. destruct (key_guard k Hk) as [-> ->]. rewrite T, E.
  destruct (auto_resize_spec hc ht1 m1 Hsz H1) as (ht2 & -> & A1 & A2 & A3 & A4); [lia|].
  exists ht2. split; [reflexivity|]. split; [auto|]. split; [auto|]. split; [|lia].
  intros k' v' Hn. rewrite <- (F k' v' Hn). split; apply Permutation_in; [auto|now symmetry].
Qed.
End Op.

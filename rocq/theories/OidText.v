(** * Proofs about the printed form of object identifiers. *)
From Coq Require Import Lia.
From Verif Require Import OidsModel.
Local Open Scope N_scope.
Local Arguments N.add : simpl never.
Local Arguments N.mul : simpl never.
Local Arguments N.pow : simpl never.
Local Arguments N.div : simpl never.
Local Arguments N.modulo : simpl never.
Local Arguments N.shiftl : simpl never.
Local Arguments N.shiftr : simpl never.
Local Arguments N.land : simpl never.
Local Arguments N.lor : simpl never.
Local Arguments N.ltb : simpl never.
Local Arguments N.leb : simpl never.
Local Arguments N.eqb : simpl never.
Local Arguments N.sub : simpl never.
Local Opaque N.land N.lor N.lxor N.shiftr N.shiftl N.mul N.modulo N.div.

Lemma u64_mod n : u64 n = n mod 2^64.
Proof. unfold u64. change 0xFFFFFFFFFFFFFFFF with (N.ones 64). apply N.land_ones. Qed.
Lemma u32_mod n : u32 n = n mod 2^32.
Proof. unfold u32. change 0xFFFFFFFF with (N.ones 32). apply N.land_ones. Qed.
Lemma lo_mod n : oid_lo n = n mod 2^32.
Proof. apply u32_mod. Qed.

Lemma lor_add X k b : X mod 2^k = 0 -> b < 2^k -> N.lor X b = X + b.
Proof.
  intros HX Hb.
  assert (Hl : N.land X b = 0).
  { apply N.bits_inj. intro i. rewrite N.land_spec, N.bits_0.
    destruct (N.lt_ge_cases i k) as [H|H].
    - assert (HT : N.testbit X i = false).
      { assert (E : X = N.shiftl (X / 2^k) k).
        { rewrite N.shiftl_mul_pow2. pose proof (N.div_mod X (2^k) ltac:(apply N.pow_nonzero; lia)).
          rewrite HX in H0. lia. }
        rewrite E. rewrite N.shiftl_spec_low by exact H. reflexivity. }
      rewrite HT. reflexivity.
    - assert (HT : N.testbit b i = false).
      { destruct (N.eq_dec b 0) as [->|Hnz]; [apply N.bits_0|].
        apply N.bits_above_log2.
        apply N.lt_le_trans with k; [|exact H].
        apply N.log2_lt_pow2; [lia|exact Hb]. }
      rewrite HT. apply andb_false_r. }
  rewrite <- (N.lxor_lor _ _ Hl). symmetry. apply N.add_nocarry_lxor. exact Hl.
Qed.

(** ** Printed form *)
Lemma xdigit_hexchar d : d < 16 -> xdigit (hexchar d) = Some d.
Proof.
  intros H. unfold hexchar, xdigit. destruct (N.ltb_spec d 10).
  - destruct (N.leb_spec 48 (48 + d)), (N.leb_spec (48 + d) 57); try lia. simpl. f_equal. lia.
  - destruct (N.leb_spec 48 (87 + d)), (N.leb_spec (87 + d) 57); try lia. simpl.
    destruct (N.leb_spec 97 (87 + d)), (N.leb_spec (87 + d) 102); try lia. simpl. f_equal. lia.
Qed.
(** The digits as a list of weights, most significant first. *)
Definition all_hex (s : list N) : Prop := Forall (fun c => exists d, xdigit c = Some d) s.
Fixpoint hexval (acc : N) (s : list N) : N :=
  match s with
  | [] => acc
  | c :: s' => match xdigit c with Some d => hexval (acc * 16 + d) s' | None => acc end
  end.
Lemma hexval_app s : forall acc t, all_hex s -> hexval acc (s ++ t) = hexval (hexval acc s) t.
Proof.
  induction s as [|c s IH]; intros acc t H; cbn [app hexval]; auto.
  inversion H as [|? ? [d Hd] Hs]; subst. rewrite Hd. now apply IH.
Qed.
Lemma hex_loop_app f : forall n acc, hex_loop f n acc = hex_loop f n [] ++ acc.
Proof.
  induction f as [|f IH]; intros n acc; cbn [hex_loop]; auto.
  destruct (n / 16 =? 0); auto. rewrite IH. rewrite (IH _ [_]). now rewrite <- app_assoc.
Qed.
Lemma hex_loop_ok f : forall n, n < 16^(N.of_nat f) -> n <> 0 \/ (f <> O) ->
  all_hex (hex_loop f n []) /\ hexval 0 (hex_loop f n []) = n /\ (length (hex_loop f n []) <= f)%nat.
Proof.
  induction f as [|f IH]; intros n Hn Hf.
  - simpl in Hn. assert (n = 0) by lia. destruct Hf; congruence.
  - cbn [hex_loop]. assert (Hm : n mod 16 < 16) by (apply N.mod_lt; discriminate).
    assert (D : n = 16 * (n / 16) + n mod 16) by (apply N.div_mod; discriminate).
    destruct (N.eqb_spec (n / 16) 0) as [E|E].
    + split; [repeat constructor; eexists; now apply xdigit_hexchar|]. split; [|simpl; lia].
      cbn [hexval]. rewrite xdigit_hexchar by auto. lia.
    + assert (Hd : n / 16 < 16 ^ N.of_nat f).
      { apply N.div_lt_upper_bound; [discriminate|]. rewrite Nat2N.inj_succ, N.pow_succ_r' in Hn. lia. }
      destruct (IH (n / 16) Hd (or_introl E)) as (A & B & C). rewrite hex_loop_app.
      split; [apply Forall_app; split; auto; repeat constructor; eexists; now apply xdigit_hexchar|].
      split.
      * rewrite hexval_app, B by auto. cbn [hexval]. rewrite xdigit_hexchar by auto. lia.
      * rewrite app_length. simpl. lia.
Qed.
Lemma hex_loop_len f : forall g n, n < 16^(N.of_nat g) -> (0 < g)%nat -> (g <= f)%nat ->
  (length (hex_loop f n []) <= g)%nat.
Proof.
  induction f as [|f IH]; intros g n Hn Hg Hf; [lia|]. cbn [hex_loop].
  destruct (N.eqb_spec (n / 16) 0) as [E|E]; [simpl; lia|].
  rewrite hex_loop_app, app_length. simpl.
  destruct g as [|g]; [lia|].
  assert (Hd : n / 16 < 16 ^ N.of_nat g).
  { apply N.div_lt_upper_bound; [discriminate|]. rewrite Nat2N.inj_succ, N.pow_succ_r' in Hn. lia. }
  destruct g as [|g]; [exfalso; apply E; now apply N.lt_1_r|].
  specialize (IH (S g) (n / 16) Hd ltac:(lia) ltac:(lia)). lia.
Qed.
Lemma hex_nonempty f n : exists c r, hex_loop (S f) n [] = c :: r.
Proof.
  cbn [hex_loop]. destruct (n / 16 =? 0); eauto.
  rewrite hex_loop_app. destruct (hex_loop f (n / 16) []) as [|c r]; simpl; eauto.
Qed.
Lemma print_hex_nonempty n : exists c r, print_hex n = c :: r.
Proof. apply hex_nonempty. Qed.
Lemma hexval_mono s : forall a b, a <= b -> hexval a s <= hexval b s.
Proof.
  induction s as [|c s IH]; intros a b H; cbn [hexval]; auto.
  destruct (xdigit c); auto. apply IH. lia.
Qed.
Lemma hexval_ge s : forall a, a <= hexval a s.
Proof.
  induction s as [|c s IH]; intros a; cbn [hexval]; [lia|].
  destruct (xdigit c) as [d|]; [|lia]. etransitivity; [|apply IH]. lia.
Qed.
Lemma strtoull_spec s : forall acc t, all_hex s -> (match t with [] => True | c :: _ => xdigit c = None end) ->
  hexval acc s < 2^64 -> strtoull_loop acc (s ++ t) = (hexval acc s, t).
Proof.
  induction s as [|c s IH]; intros acc t H Ht Hv; cbn [app hexval strtoull_loop] in *.
  - destruct t as [|c t]; auto. cbn [strtoull_loop]. now rewrite Ht.
  - inversion H as [|? ? [d Hd] Hs]; subst. rewrite Hd in *.
    pose proof (hexval_ge s (acc * 16 + d)).
    rewrite N.min_l by (change 0xFFFFFFFFFFFFFFFF with (2^64 - 1); lia). now apply IH.
Qed.
Lemma print_hex_ok n : n < 2^32 -> all_hex (print_hex n) /\ hexval 0 (print_hex n) = n /\ (length (print_hex n) <= 8)%nat.
Proof.
  intros H. assert (n < 16 ^ N.of_nat 16) by (simpl; lia).
  destruct (hex_loop_ok 16 n) as (A & B & _); auto. split; auto. split; auto.
  apply hex_loop_len; simpl; lia.
Qed.
Lemma pno_hex s : forall rest buf len slash, all_hex s ->
  (length buf + length s < 64)%nat -> len + N.of_nat (length s) < 64 ->
  pno_loop (s ++ rest) buf len slash = pno_loop rest (rev s ++ buf) (len + N.of_nat (length s)) slash.
Proof.
  induction s as [|c s IH]; intros rest buf len slash H Hb Hl; cbn [app].
  - simpl. f_equal. lia.
  - inversion H as [|? ? [d Hd] Hs]; subst. cbn [pno_loop length] in *.
    destruct (N.leb_spec 64 len); [lia|]. rewrite Hd.
    destruct (N.leb_spec 64 (N.of_nat (length buf))); [lia|].
    rewrite IH; simpl; auto; try lia. rewrite <- app_assoc. simpl. f_equal. lia.
Qed.
Lemma hi_lo_join a : a < 2^64 -> set_lo (set_hi 0 (oid_hi a)) (oid_lo a) = a.
Proof.
  intros H. unfold set_lo, set_hi. rewrite N.land_0_l, N.lor_0_l.
  unfold oid_hi, oid_lo. rewrite u32_mod, u64_mod, N.shiftr_div_pow2, N.shiftl_mul_pow2.
  assert (Hd : a / 2^32 < 2^32) by (apply N.div_lt_upper_bound; [discriminate|]; change (2^32*2^32) with (2^64); lia).
  rewrite (N.mod_small (a / 2^32)) by auto.
  assert (Hm : a / 2^32 * 2^32 < 2^64) by (change (2^64) with (2^32*2^32); apply N.mul_lt_mono_pos_r; auto; reflexivity).
  rewrite (N.mod_small (_ * _)) by auto.
  change 0xFFFFFFFF with (N.ones 32). rewrite !N.land_ones, N.mod_mod by discriminate.
  assert (E : N.land (a / 2^32 * 2^32) 0xFFFFFFFF00000000 = a / 2^32 * 2^32).
  { change 0xFFFFFFFF00000000 with (N.shiftl (N.ones 32) 32). rewrite <- N.shiftl_mul_pow2, <- N.shiftl_land.
    rewrite N.land_ones, (N.mod_small (a / 2^32)) by auto. reflexivity. }
  rewrite E, (lor_add _ 32).
  - rewrite (N.mul_comm _ (2^32)). symmetry. apply N.div_mod. discriminate.
  - apply N.mod_mul. discriminate.
  - apply N.mod_lt. discriminate.
Qed.
Lemma resolve_print hi lo : hi < 2^32 -> lo < 2^32 ->
  resolve_numeric_oid (print_hex hi ++ 47 :: print_hex lo) = Some (set_lo (set_hi 0 (u32 hi)) (u32 lo)).
Proof.
  intros Hh Hl. destruct (print_hex_ok hi Hh) as (A & B & _). destruct (print_hex_ok lo Hl) as (A' & B' & _).
  unfold resolve_numeric_oid.
  assert (E : match print_hex hi ++ 47 :: print_hex lo with 64 :: r => r | _ => print_hex hi ++ 47 :: print_hex lo end
             = print_hex hi ++ 47 :: print_hex lo).
  { destruct (print_hex_nonempty hi) as (c & r & Ec). rewrite Ec in *. inversion A as [|? ? [d Hd] _]; subst.
    cbn [app]. destruct (N.eq_dec c 64) as [->|Hc]; [discriminate|].
    destruct c; auto. do 7 (destruct p; auto; try congruence). }
  rewrite E. unfold strtoull16. rewrite strtoull_spec; auto; [|rewrite B; lia].
  rewrite <- (app_nil_r (print_hex lo)), strtoull_spec; auto; [|rewrite B'; lia].
  now rewrite B, B'.
Qed.
Lemma hi_lt a : oid_hi a < 2^32.
Proof. unfold oid_hi. rewrite u32_mod. apply N.mod_lt. discriminate. Qed.
Lemma lo_lt a : oid_lo a < 2^32.
Proof. rewrite lo_mod. apply N.mod_lt. discriminate. Qed.

Definition stops (rest : list N) : Prop :=
  match rest with [] => True | c :: _ => isspace c || existsb (N.eqb c) [125; 93; 41] = true end.

Lemma stop_char c : isspace c || existsb (N.eqb c) [125; 93; 41] = true ->
  xdigit c = None /\ c <> 47 /\ c <> 58 /\ c <> 46 /\ isspace c || oid_delim c = true /\
  isspace c || existsb (N.eqb c) [125; 93; 41; 0] = true.
Proof.
  intros H. assert (Hc : (9 <= c <= 13) \/ c = 32 \/ c = 125 \/ c = 93 \/ c = 41).
  { unfold isspace in H. cbn [existsb] in H.
    destruct (N.leb_spec 9 c), (N.leb_spec c 13), (N.eqb_spec c 32), (N.eqb_spec c 125), (N.eqb_spec c 93), (N.eqb_spec c 41);
      try discriminate; auto; lia. }
  assert (Hc' : In c [9;10;11;12;13;32;125;93;41]) by (simpl; lia).
  clear H Hc. simpl in Hc'.
  decompose [or] Hc'; subst; try contradiction; repeat split; try discriminate; reflexivity.
Qed.

Lemma parse_print a rest : a < 2^64 -> stops rest -> parse_oid (print_oid a ++ rest) = POk a rest.
Proof.
  intros Ha Hs. unfold print_oid.
  pose proof (hi_lt a) as Hh. pose proof (lo_lt a) as Hl.
  destruct (print_hex_ok _ Hh) as (A & B & C). destruct (print_hex_ok _ Hl) as (A' & B' & C').
  destruct (print_hex_nonempty (oid_hi a)) as (c & r & Ec).
  assert (Hd : exists d, xdigit c = Some d) by (rewrite Ec in A; inversion A; auto). destruct Hd as [d Hd].
  unfold parse_oid. cbn [app]. rewrite <- app_assoc. cbn [app].
  rewrite Ec. cbn [app]. rewrite Hd.
  change (c :: r ++ 47 :: print_hex (oid_lo a) ++ rest) with ((c :: r) ++ 47 :: print_hex (oid_lo a) ++ rest).
  rewrite <- Ec.
  assert (Hp : parse_numeric_oid (print_hex (oid_hi a) ++ 47 :: print_hex (oid_lo a) ++ rest) = POk a rest).
  { unfold parse_numeric_oid.
    assert (E : match print_hex (oid_hi a) ++ 47 :: print_hex (oid_lo a) ++ rest with 64 :: r => r
                | _ => print_hex (oid_hi a) ++ 47 :: print_hex (oid_lo a) ++ rest end
             = print_hex (oid_hi a) ++ 47 :: print_hex (oid_lo a) ++ rest).
    { rewrite Ec. cbn [app]. destruct (N.eq_dec c 64) as [->|Hc]; [discriminate|].
      destruct c; auto. do 7 (destruct p; auto; try congruence). }
    rewrite E. rewrite pno_hex; auto; try (simpl; lia).
    cbn [pno_loop]. destruct (N.leb_spec 64 (0 + N.of_nat (length (print_hex (oid_hi a))))); [lia|].
    change (xdigit 47) with (@None N). cbn iota. change (47 =? 47) with true. cbn iota.
    rewrite app_nil_r, rev_length.
    destruct (N.leb_spec 64 (N.of_nat (length (print_hex (oid_hi a))))); [lia|].
    rewrite pno_hex; auto; try (cbn [length]; rewrite ?rev_length; lia).
    set (buf := rev (print_hex (oid_lo a)) ++ 47 :: rev (print_hex (oid_hi a))).
    assert (Hbuf : rev buf = print_hex (oid_hi a) ++ 47 :: print_hex (oid_lo a)).
    { unfold buf. rewrite rev_app_distr. cbn [rev]. rewrite !rev_involutive, <- app_assoc. reflexivity. }
    assert (Hlen : (length buf <= 17)%nat) by (unfold buf; rewrite app_length; cbn [length]; rewrite !rev_length; lia).
    assert (Hpno : forall n, n < 64 -> pno_loop rest buf n true = POk buf rest).
    { intros n Hn. destruct rest as [|x rest]; cbn [pno_loop]; destruct (N.leb_spec 64 n); try lia; auto.
      destruct (stop_char x Hs) as (-> & H47 & H58 & H46 & Hdel & _).
      destruct (N.eqb_spec x 47); [congruence|]. destruct (N.eqb_spec x 58); [congruence|].
      destruct (N.eqb_spec x 46); [congruence|]. simpl. now rewrite Hdel. }
    rewrite Hpno by lia. destruct (N.leb_spec 64 (N.of_nat (length buf))); [lia|].
    rewrite Hbuf, resolve_print by auto.
    rewrite (u32_mod (oid_hi a)), (u32_mod (oid_lo a)), (N.mod_small (oid_hi a)), (N.mod_small (oid_lo a)) by auto. now rewrite hi_lo_join. }
  rewrite Hp. destruct rest as [|x rest]; auto.
  destruct (stop_char x Hs) as (_ & _ & _ & _ & _ & ->). reflexivity.
Qed.

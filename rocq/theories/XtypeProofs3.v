(** * Reading back what was written as an xtype: the round trip. *)

From Coq Require Import QArith NArith ZArith List Bool Lia Permutation Sorted.
From Verif Require Import SortModel BytesModel BytesProofs ValueModel ValueProofs
  ChoicesModel ChoicesProofs ChoicesProofs2 DtypeModel DtypeProofs DtypeProofs2 DtypeProofs3
  XtypeModel XtypeProofs XtypeProofs2.
From Verif Require BigintProofs BigintProofs4 BigintProps NumbersProofs NumbersProofs3.
Import ListNotations.
Local Open Scope N_scope.
Close Scope Q_scope.

Lemma code_of_tag e i : (i < 10)%nat -> code_of_const e (x_first e + N.of_nat i) = nth_error tag_codes i.
Proof.
  intros H. unfold code_of_const. destruct (N.ltb_spec (x_first e + N.of_nat i) (x_first e)); [lia|].
  f_equal. lia.
Qed.
Lemma xread_n_cons rd x l b r n : xread_n rd (S n) b = XRds (x :: l) r ->
  exists r1, rd b = XRd x r1 /\ xread_n rd n r1 = XRds l r.
Proof.
  cbn [xread_n]. destruct (rd b) as [v r1| | |]; try discriminate. destruct (abortp v); [discriminate|].
  destruct (xread_n rd n r1) eqn:R; try discriminate. intros [= -> -> ->]. eauto.
Qed.
Lemma is_int_inum x : is_int x = true -> exists i, inum_of x = Some i /\ dv_of i = x.
Proof. destruct x; try discriminate; intros _; cbn; eauto. Qed.
Lemma int_val_ival x i : inum_of x = Some i -> int_val x = NumbersProofs.ival i.
Proof. destruct x; try discriminate; intros [= <-]; [reflexivity|]. apply BigintProps.value_bval. Qed.


Lemma icanon_inj i j : NumbersProofs.icanon i -> NumbersProofs.icanon j ->
  NumbersProofs.ival i = NumbersProofs.ival j -> i = j.
Proof.
  destruct i as [y|b], j as [z|d]; cbn [NumbersProofs.icanon NumbersProofs.ival]; intros Ci Cj H.
  - congruence.
  - exfalso. apply (proj2 Cj). now rewrite <- H.
  - exfalso. apply (proj2 Ci). now rewrite H.
  - f_equal. apply BigintProps.C22_normal_form_unique.
    + apply BigintProps.normal_norm. tauto.
    + apply BigintProps.normal_norm. tauto.
    + now rewrite !BigintProps.value_bval.
Qed.
Lemma canonical_int x e K : is_int x = true -> xstorable e K x -> exists i, inum_of x = Some i /\ dv_of i = x
  /\ NumbersProofs.icanon i /\ int_val x = NumbersProofs.ival i.
Proof.
  intros I S. destruct (is_int_inum x I) as (i & Hi & Hx). exists i. split; [exact Hi|]. split; [exact Hx|].
  split; [|now apply int_val_ival].
  destruct x; try discriminate; inversion S; subst; injection Hi as <-; cbn [NumbersProofs.icanon].
  - assumption.
  - split; [now apply BigintProps.normal_norm|]. unfold NumbersProofs.fixr. rewrite <- BigintProps.value_bval.
    unfold A.min_fixnum, A.max_fixnum in *. lia.
Qed.
(** Canonical rationals are what make_rational makes of their parts. *)
Lemma make_canon n d : NumbersProofs.rcanon (A.RR n d) -> A.make_rational n d = Some (A.Val (A.RR n d)).
Proof.
  intros (Cn & Cd & D1 & G).
  destruct (NumbersProofs.make_rational_spec n d) as (r & -> & Rk & Q & Rc).
  - now apply NumbersProofs.icanon_ok.
  - now apply NumbersProofs.icanon_ok.
  - lia.
  - specialize (Rc ltac:(lia)). do 2 f_equal. rewrite (NumbersProofs3.frac_pos _ (NumbersProofs.ival d)) in Q by lia.
    destruct r as [i|n' d']; cbn [NumbersProofs.rq NumbersProofs.rcanon] in *.
    + exfalso. unfold Qeq, inject_Z in Q. cbn [Qnum Qden] in Q. rewrite Z2Pos.id in Q by lia.
      assert (V : (NumbersProofs.ival d | NumbersProofs.ival n)%Z) by (exists (NumbersProofs.ival i); lia).
      apply Z.divide_gcd_iff in V; [|lia]. rewrite Z.gcd_comm in V. lia.
    + destruct Rc as (Cn' & Cd' & D1' & G'). rewrite NumbersProofs3.frac_pos in Q by lia.
      unfold Qeq in Q. cbn [Qnum Qden] in Q. rewrite !Z2Pos.id in Q by lia.
      assert (Dv : NumbersProofs.ival d' = NumbersProofs.ival d).
      { apply Z.divide_antisym_nonneg; [lia|lia|..].
        - apply Z.gauss with (m := NumbersProofs.ival n'); [exists (NumbersProofs.ival n); lia|]. now rewrite Z.gcd_comm.
        - apply Z.gauss with (m := NumbersProofs.ival n); [exists (NumbersProofs.ival n'); lia|]. now rewrite Z.gcd_comm. }
      assert (Nv : NumbersProofs.ival n' = NumbersProofs.ival n) by nia.
      f_equal; now apply icanon_inj.
Qed.
Lemma restore_rational_ok e K a b rest : xstorable e K (DRat a b) -> restore_rational a b rest = XRd (DRat a b) rest.
Proof.
  intros S. inversion S; subst. unfold restore_rational.
  destruct (canonical_int a e K) as (i & -> & Hi & Ci & Vi); auto.
  destruct (canonical_int b e K) as (j & -> & Hj & Cj & Vj); auto.
  rewrite make_canon.
  - now rewrite Hi, Hj.
  - cbn [NumbersProofs.rcanon]. rewrite <- Vi, <- Vj. auto.
Qed.
Lemma restore_complex_ok e K a b rest : xstorable e K b -> imag_ok b -> restore_complex a b rest = XRd (DCpx a b) rest.
Proof.
  intros S H. destruct b; cbn [imag_ok] in H; try tauto; unfold restore_complex.
  - now destruct (Z.eqb_spec z 0).
  - inversion S; subst. assert (V : int_val (DBig b) = BigintProps.value b) by reflexivity. rewrite V.
    destruct (Z.eqb_spec (BigintProps.value b) 0); [|reflexivity]. unfold A.max_fixnum in *. lia.
  - now destruct (Z.eqb_spec (int_val b1) 0).
Qed.
Lemma restore_bigint_ok b t rest : BigintProps.normal_form b -> (A.max_fixnum < Z.abs (BigintProps.value b))%Z ->
  B.bigint_to_digit_stream b 256 = Some t ->
  restore_bigint (flat_map put_byte (map Z.to_N (rev t))) (B.bneg b) rest = XRd (DBig b) rest.
Proof.
  intros N R T. unfold restore_bigint.
  destruct (BigintProps.C47_writing_exact b 256 N) as (t1 & T1 & F & _); [lia|].
  destruct (BigintProps.C47_round_trip b 256 N) as (t2 & T2 & RT); [lia|].
  rewrite T in T1, T2. inversion T1; inversion T2; subst t1 t2.
  rewrite put_flat by (now apply Forall_rev). rewrite RT, simplify_big; [reflexivity| |].
  - now apply BigintProps.normal_norm.
  - now rewrite <- BigintProps.value_bval.
Qed.

Section RoundTrip.
Variables (e : xenv) (c : xconf).
Hypothesis E : xenv_ok e.
Hypothesis O : xconf_ok c.
Variable K : N -> N -> Prop.
Local Notation snd_ := (sends e K).

Ltac fuel f L := destruct f as [|f]; [apply Nat.le_0_r, length_zero_iff_nil in L; discriminate L|].

Lemma put_varint_ne n : n < 2 ^ 63 -> put_varint n <> [].
Proof. intros H. destruct (put_varint_len n H) as [_ L]. destruct (put_varint n); [cbn in L; lia|discriminate]. Qed.

(** ** Constants and numbers *)

Lemma sends_const n : xstorable e K (DConst n) -> snd_ (write_const e c n) (DConst n).
Proof.
  intros St. inversion St as [m H| | | | | | | | | | | | | | | |]; subst. destruct E as (_ & _ & F1 & F2).
  assert (G : forall b, b <> [] -> (forall tbl f rest, xread_loop e (S f) tbl (b ++ rest) = XRd (DConst n) rest) ->
    snd_ (wput b) (DConst n)).
  { intros b Hb R. apply const_sends; [exact Hb|]. intros tbl f rest L. destruct b; [congruence|]. fuel f L. apply R. }
  unfold write_const.
  destruct (N.eqb_spec n 1) as [->|]; [apply G; [discriminate|reflexivity]|].
  destruct (N.eqb_spec n 2) as [->|]; [apply G; [discriminate|reflexivity]|].
  destruct (N.eqb_spec n 3) as [->|]; [apply G; [discriminate|reflexivity]|].
  destruct (N.eqb_spec n 4) as [->|]; [apply G; [discriminate|reflexivity]|].
  destruct (N.eqb_spec n 5) as [->|]; [apply G; [discriminate|reflexivity]|].
  destruct (N.eqb_spec n 0) as [->|]; [lia|]. cbn [orb].
  destruct (N.eqb_spec n 23) as [->|]; [apply G; [discriminate|reflexivity]|].
  assert (T : x_first e <= n < x_first e + 10) by lia.
  assert (Q : exists i, (i < 10)%nat /\ n = x_first e + N.of_nat i) by (exists (N.to_nat (n - x_first e)); lia).
  destruct Q as (i & Hi & ->). rewrite code_of_tag by exact Hi.
  do 10 (destruct i as [|i]; [apply G; [discriminate|reflexivity]|]). lia.
Qed.
Lemma sends_fixnum z : (A.min_fixnum <= z <= A.max_fixnum)%Z -> snd_ (write_fixnum z) (DFix z).
Proof.
  intros H. unfold A.min_fixnum, A.max_fixnum in H.
  assert (B63 : forall y, (0 <= y <= 2305843009213693951)%Z -> Z.to_N y < 2 ^ 63)
    by (intros y Hy; change (2 ^ 63) with 9223372036854775808; lia).
  assert (X : forall y r, (-2305843009213693951 <= y <= 2305843009213693951)%Z -> xint y r = XRd (DFix y) r).
  { intros y r Hy. unfold xint, A.min_fixnum, A.max_fixnum.
    destruct (Z.leb_spec (-2305843009213693951) y); [|lia]. destruct (Z.leb_spec y 2305843009213693951); [|lia]. reflexivity. }
  unfold write_fixnum. destruct (Z.ltb_spec z 0); unfold wcode, wvarint; cbn [fst snd].
  - eapply flat_sends; [reflexivity|discriminate| |].
    + rewrite varint_rv by (apply B63; lia). cbn [length]. lia.
    + intros tbl f rest L. fuel f L.
      match goal with |- _ = ?rhs => change ((let (ival, r0) := xt_varint (put_varint (Z.to_N (- z)) ++ rest) in
        if (ival <? 0)%Z then XRd D_ERROR r0 else xint (- ival) r0) = rhs) end.
      rewrite xt_varint_put by (apply B63; lia). destruct (Z.ltb_spec (Z.of_N (Z.to_N (- z))) 0); [lia|].
      rewrite Z2N.id by lia. rewrite Z.opp_involutive. apply X. lia.
  - eapply flat_sends; [reflexivity|discriminate| |].
    + rewrite varint_rv by (apply B63; lia). cbn [length]. lia.
    + intros tbl f rest L. fuel f L.
      match goal with |- _ = ?rhs => change ((let (ival, r0) := xt_varint (put_varint (Z.to_N z) ++ rest) in
        if (ival <? 0)%Z then XRd D_ERROR r0 else xint ival r0) = rhs) end.
      rewrite xt_varint_put by (apply B63; lia). destruct (Z.ltb_spec (Z.of_N (Z.to_N z)) 0); [lia|].
      rewrite Z2N.id by lia. apply X. lia.
Qed.
Lemma sends_char n : n < 2 ^ 23 -> snd_ (fun r => (wcode 0x8E n, r)) (DChar n).
Proof.
  intros H. assert (n < 2 ^ 63) by (change (2 ^ 23) with 8388608 in H; change (2 ^ 63) with 9223372036854775808; lia).
  unfold wcode, wvarint; cbn [fst snd].
  eapply flat_sends; [reflexivity|discriminate| |].
  - rewrite varint_rv by assumption. cbn [length]. lia.
  - intros tbl f rest L. fuel f L.
    match goal with |- _ = ?rhs => change ((let (ival, r0) := xt_varint (put_varint n ++ rest) in
        if (ival <? 0)%Z then XRd D_ERROR r0 else if (ival <? 2 ^ 23)%Z then XRd (DChar (Z.to_N ival)) r0 else XUnk) = rhs) end.
    rewrite xt_varint_put by assumption. destruct (Z.ltb_spec (Z.of_N n) 0); [lia|].
    destruct (Z.ltb_spec (Z.of_N n) (2 ^ 23)); [now rewrite N2Z.id|].
    exfalso. change (2 ^ 23) with 8388608 in H. change (2 ^ 23)%Z with 8388608%Z in *. lia.
Qed.
Lemma sends_block code s x : short s ->
  (forall tbl f rest, xread_loop e (S f) tbl (code :: put_varint (llen s) ++ s ++ rest) = XRd x rest) ->
  snd_ (write_block code s) x.
Proof.
  intros Sh R. destruct (short_63 s Sh) as [H _].
  eapply flat_sends; [reflexivity|discriminate| |].
  - rewrite varint_rv by exact H. cbn [length]. rewrite app_length. unfold llen, bytes, byte in *. lia.
  - intros tbl f rest L. fuel f L. cbn [app]. rewrite <- app_assoc. apply R.
Qed.
Lemma sends_str s : short s -> snd_ (write_block 0x90 s) (DStr s).
Proof.
  intros Sh. apply sends_block; [exact Sh|]. intros tbl f rest. destruct (short_63 s Sh) as [H _].
  match goal with |- _ = ?rhs => change ((let (len, b2) := xt_varint (put_varint (llen s) ++ s ++ rest) in
    xread_bytes len b2 (fun s r => XRd (DStr s) r)) = rhs) end.
  rewrite xt_varint_put by exact H. now rewrite xread_bytes_app.
Qed.
Lemma sends_packet k s : short s -> snd_ (write_block (if k : bool then 0x92 else 0x91) s) (DPacket k s).
Proof.
  intros Sh. apply sends_block; [exact Sh|]. intros tbl f rest. destruct (short_63 s Sh) as [H _].
  match goal with |- _ = ?rhs => assert (G : (let (len, b2) := xt_varint (put_varint (llen s) ++ s ++ rest) in
    xread_bytes len b2 (fun s r => XRd (DPacket k s) r)) = rhs);
    [|destruct k; exact G] end.
  rewrite xt_varint_put by exact H. now rewrite xread_bytes_app.
Qed.
Lemma sends_flo w : w < 2 ^ 64 -> snd_ (wput (0x88 :: put_8bytes w)) (DFlo w).
Proof.
  intros H. apply const_sends; [discriminate|]. intros tbl f rest L. fuel f L.
  match goal with |- _ = ?rhs => change (xread_bytes (Z.of_N (llen (put_8bytes w))) (put_8bytes w ++ rest)
    (fun w r => match get8 w with Some n => XRd (DFlo n) r | None => XUnk end) = rhs) end.
  rewrite xread_bytes_app.
  assert (G : get8 (put_8bytes w) = Some w).
  { pose proof (read_8bytes_put w [] ) as R. rewrite app_nil_r in R.
    unfold read_8bytes in R. rewrite N.mod_small in R by assumption.
    destruct (request_bytes (put_8bytes w) 8); [|discriminate].
    destruct (get8 (put_8bytes w)); [|discriminate]. congruence. }
  now rewrite G.
Qed.
Lemma sends_bigint b : xstorable e K (DBig b) -> snd_ (write_bigint b) (DBig b).
Proof.
  intros St. inversion St as [| | | | |b' Nf Gt Lg| | | | | | | | | | |]; subst. unfold write_bigint.
  pose proof (proj1 (BigintProps.normal_norm b) Nf) as Nn.
  rewrite BigintProofs4.fits_in_word_spec by (auto; lia).
  destruct (B.bigint_to_digit_stream b 256) as [t|] eqn:T;
      [|destruct (BigintProps.C47_writing_exact b 256 Nf) as (t & T' & _); [lia|congruence]].
  assert (Lt : (Z.abs (BigintProofs.bval b) <? 2 ^ (32 - 1))%Z = false).
  { apply Z.ltb_ge. rewrite <- BigintProps.value_bval. unfold A.max_fixnum in *. change (2 ^ (32 - 1))%Z with 2147483648%Z. lia. }
  rewrite Lt.
  assert (Lc : (Z.of_nat (length t) + 1 < 2 ^ 31)%Z) by (apply (digits_count b t); auto).
  pose proof (fun rest => restore_bigint_ok b t rest Nf Gt T) as U.
  set (ds := flat_map put_byte (map Z.to_N (rev t))) in *.
  assert (Lp : llen t = llen ds).
  { unfold llen, ds. rewrite flat_put, map_length, rev_length. reflexivity. }
  assert (Hl : llen t < 2 ^ 63).
  { unfold llen. change (2 ^ 31)%Z with 2147483648%Z in Lc. change (2 ^ 63) with 9223372036854775808. lia. }
  rewrite Lp in *. eapply flat_sends; [reflexivity|discriminate| |].
  - rewrite varint_rv by exact Hl. cbn [length]. rewrite app_length. unfold llen, bytes, byte in *. lia.
  - intros tbl f rest L. fuel f L. cbn [app]. rewrite <- app_assoc.
    match goal with |- _ = ?rhs => assert (G : read_big (B.bneg b) (put_varint (llen ds) ++ ds ++ rest) = rhs);
      [|destruct (B.bneg b); exact G] end.
    unfold read_big. rewrite xt_varint_put by exact Hl. rewrite xread_bytes_app. apply U.
Qed.

(** ** Symbols and OIDs *)

Lemma reads_index t tbl i x : reads (Some t) tbl -> nth_error (r_refs t) (N.to_nat i) = Some x ->
  exists R, tbl = Some R /\ i < 2 ^ 63 /\ nth_error R (N.to_nat i) = Some x.
Proof.
  intros (s & -> & L) H. exists (r_refs t ++ s). split; [reflexivity|].
  assert (N.to_nat i < length (r_refs t))%nat by (apply nth_error_Some; congruence).
  split; [rewrite app_length in L; lia|]. now rewrite nth_error_app1.
Qed.
Lemma read_symbol_plain tbl f s rest : short s -> ~ In 0 s ->
  xread_loop e (S f) tbl (0x93 :: put_varint (llen s) ++ s ++ rest) = XRd (DSym s) rest.
Proof.
  intros Sh Nn. destruct (short_63 s Sh) as [H _].
  match goal with |- _ = ?rhs => change ((let (len, b2) := xt_varint (put_varint (llen s) ++ s ++ rest) in
    if (len <? 0)%Z then XRd D_ERROR b2
    else xread_bytes len b2 (fun s r => if has_nul s then XUnk else XRd (DSym s) r)) = rhs) end.
  rewrite xt_varint_put by exact H. destruct (Z.ltb_spec (Z.of_N (llen s)) 0); [lia|].
  rewrite xread_bytes_app. now rewrite has_nul_not.
Qed.
Lemma sends_symbol s : short s -> ~ In 0 s -> snd_ (write_symbol c s) (DSym s).
Proof.
  intros Sh Nn. destruct (short_63 s Sh) as [H _].
  assert (Plain : snd_ (fun r => ((0x93 :: put_varint (llen s) ++ s,
                (1 + Z.of_N (write_varint_rv (llen s)) + Z.of_N (llen s))%Z), r)) (DSym s)).
  { eapply flat_sends; [reflexivity|discriminate| |].
    - rewrite varint_rv by exact H. cbn [length]. rewrite app_length. unfold llen, bytes, byte in *. lia.
    - intros tbl f rest L. fuel f L. cbn [app]. rewrite <- app_assoc. now apply read_symbol_plain. }
  intros r Tr Kr. unfold write_symbol. destruct r as [t|]; [|now apply Plain].
  destruct (x_norefs c); [now apply Plain|].
  pose proof (xtype_ref_ok (DSym s) t Tr eq_refl) as P.
  destruct (xtype_ref (DSym s) t) as [[i|] t'] eqn:X; destruct P as (P1 & P2 & P3).
  - split; [exact P1|]. split; [exact P2|]. unfold wcode, wvarint. cbn [fst snd]. split; [|split; [lia|]].
    + intros [tbl Ht]. destruct (reads_index t' tbl i _ Ht P3) as (R & _ & Hi & _). split; [discriminate|].
      rewrite varint_rv by exact Hi. cbn [length]. lia.
    + intros tbl Ht f rest L. destruct (reads_index t' tbl i _ Ht P3) as (R & -> & Hi & Hn). fuel f L.
      match goal with |- _ = ?rhs => change (read_absref (Some R) (put_varint i ++ rest) = rhs) end.
      unfold read_absref. rewrite xt_varint_put by exact Hi. destruct (Z.ltb_spec (Z.of_N i) 0); [lia|].
      rewrite Z_N_nat, N2Z.id || (assert (Z.to_nat (Z.of_N i) = N.to_nat i) as -> by lia). now rewrite Hn.
  - specialize (Plain (Some t') P1 Kr). destruct Plain as (Q1 & Q2 & Q3). auto.
Qed.
Lemma sends_oid hi lo : hi < 2 ^ 32 -> lo < 2 ^ 32 -> K hi lo -> snd_ (write_oid e c hi lo) (DOid hi lo).
Proof.
  intros Hh Hl HK. destruct E as (_ & Bs & _).
  assert (Plain : snd_ (fun r => ((0x89 :: put_4bytes hi ++ put_4bytes lo, 9%Z), r)) (DOid hi lo)).
  { eapply flat_sends; [reflexivity|discriminate|reflexivity|].
    intros tbl f rest L. fuel f L. 
    match goal with |- _ = ?rhs => change (match read_4bytes (put_4bytes hi ++ put_4bytes lo ++ rest) with
        | None => XRd D_ERROR (put_4bytes hi ++ put_4bytes lo ++ rest)
        | Some (hi, b2) =>
          match read_4bytes b2 with
          | None => XRd D_ERROR b2
          | Some (lo, b3) => XRd (DOid hi lo) b3
          end
        end = rhs) end.
    rewrite !read_4bytes_put, !N.mod_small by assumption. reflexivity. }
  intros r Tr Kr. unfold write_oid. destruct r as [t|]; [|now apply Plain].
  destruct (x_norefs c); [now apply Plain|].
  destruct (oid_base_id e hi lo) as [id|] eqn:Hid; [|now apply Plain].
  pose proof (Kr hi lo HK id Hid) as Low. unfold base_key. rewrite N.mod_small by exact Low. rewrite Nat2N.id.
  destruct (oid_at e id 0) as [base|] eqn:Hb; [|now apply Plain].
  destruct (oid_at_key e id 0 base Hb) as (Kb & bh & bl & ->).
  pose proof (xtype_ref_ok (DOid bh bl) t Tr Kb) as P.
  assert (Ho : oid_offset lo < 2 ^ 20) by (rewrite off_mod; apply N.mod_lt; discriminate).
  assert (Ho' : oid_offset lo < 2 ^ 63) by (change (2 ^ 20) with 1048576 in Ho; change (2 ^ 63) with 9223372036854775808; lia).
  destruct (xtype_ref (DOid bh bl) t) as [[i|] t'] eqn:X; destruct P as (P1 & P2 & P3).
  - split; [exact P1|]. split; [exact P2|]. split; [|split; [lia|]].
    + intros [tbl Ht]. destruct (reads_index t' tbl i _ Ht P3) as (R & _ & Hi & _). split; [discriminate|].
      rewrite !varint_rv by assumption. cbn [length]. rewrite app_length. lia.
    + intros tbl Ht f rest L. destruct (reads_index t' tbl i _ Ht P3) as (R & -> & Hi & Hn). fuel f L.
      cbn [app]. rewrite <- app_assoc.
      match goal with |- _ = ?rhs => change (read_offref e (Some R) (put_varint (oid_offset lo) ++ put_varint i ++ rest) = rhs) end.
      unfold read_offref. rewrite xt_varint_put by exact Ho'. destruct (Z.ltb_spec (Z.of_N (oid_offset lo)) 0); [lia|].
      rewrite xt_varint_put by exact Hi. destruct (Z.ltb_spec (Z.of_N i) 0); [lia|].
      assert (Z.to_nat (Z.of_N i) = N.to_nat i) as -> by lia. rewrite Hn.
      destruct (Z.leb_spec (2 ^ 20) (Z.of_N (oid_offset lo))) as [Bad|].
      { exfalso. change (2 ^ 20)%Z with 1048576%Z in Bad. change (2 ^ 20) with 1048576 in Ho. lia. }
      rewrite (base_of_base e Bs id bh bl Hb), N2Z.id. now rewrite (oid_at_base e hi lo id).
  - specialize (Plain (Some t') P1 Kr). destruct Plain as (Q1 & Q2 & Q3). auto.
Qed.

(** ** Structures *)

Lemma forall2_map (f : dv -> writer) l : Forall (fun x => snd_ (f x) x) l -> Forall (xstorable e K) l ->
  Forall2 (fun w x => snd_ w x /\ abortp x = false) (map f l) l.
Proof.
  induction 1; intros St; inversion St; subst; constructor; auto. split; [assumption|].
  now apply (xstorable_stop e K).
Qed.
Lemma sends_counted code (n : N) w l x : n < 2 ^ 63 ->
  (forall len, sends_all e K (w len) len l) ->
  (forall tbl f b rest, xread_n (xread_loop e f tbl) (length l) (b ++ rest) = XRds l rest ->
     xread_loop e (S f) tbl (code :: put_varint n ++ b ++ rest) = XRd x rest) ->
  snd_ (wcounted code n w) x.
Proof.
  intros Hn Hw R. unfold wcounted. eapply sends_wafter; [discriminate| |  |apply Hw|].
  - rewrite varint_rv by exact Hn. lia.
  - rewrite varint_rv by exact Hn. cbn [length]. lia.
  - intros tbl f b rest L H. cbn [app]. now apply R.
Qed.
Lemma wsome_sends ws l : Forall2 (fun w x => snd_ w x /\ abortp x = false) ws l ->
  forall len, sends_all e K (wsome ws len) len l.
Proof.
  intros F len r Tr Kr. rewrite (wsome_wall e K ws l F len r Tr Kr). now apply (wall_sends e K ws l F).
Qed.
Lemma sends_vec l : short l -> Forall (fun x => snd_ (write_xtype e c x) x) l -> Forall (xstorable e K) l ->
  snd_ (write_xtype e c (DVec l)) (DVec l).
Proof.
  intros Sh F St. destruct (short_63 l Sh) as [H H']. cbn [write_xtype].
  apply (sends_counted _ _ _ l); [exact H|apply wsome_sends; now apply forall2_map|].
  intros tbl f b rest R.
  match goal with |- _ = ?rhs => change ((let (n, b2) := xt_varint (put_varint (llen l) ++ b ++ rest) in
        if (n <? 0)%Z then XBad
        else if (2 ^ 31 <=? n)%Z then XUnk
        else match xread_n (xread_loop e f tbl) (Z.to_nat n) b2 with
             | XRds l r => XRd (DVec l) r
             | XStop _ v r => XRd v r
             | XsBad => XBad
             | XsLoop => XLoop
             | XsUnk => XUnk
             end) = rhs) end.
  rewrite xt_varint_put by exact H. destruct (Z.ltb_spec (Z.of_N (llen l)) 0); [lia|].
  destruct (Z.leb_spec (2 ^ 31) (Z.of_N (llen l))); [lia|].
  assert (Z.to_nat (Z.of_N (llen l)) = length l) as -> by (unfold llen; lia). now rewrite R.
Qed.
Lemma sends_slotmap l n : short l -> length l = (2 * n)%nat ->
  Forall (fun x => snd_ (write_xtype e c x) x) l -> Forall (xstorable e K) l ->
  snd_ (write_xtype e c (DSlotmap l)) (DSlotmap l).
Proof.
  intros Sh Ln F St. destruct (short_63 l Sh) as [H H']. cbn [write_xtype].
  apply (sends_counted _ _ _ l); [exact H|apply wall_sends; now apply forall2_map|].
  intros tbl f b rest R.
  match goal with |- _ = ?rhs => change ((let (n, b2) := xt_varint (put_varint (llen l) ++ b ++ rest) in
        if negb (Z.rem n 2 =? 0)%Z then XRd D_ERROR b2
        else if (n <? 0)%Z || (2 ^ 31 <=? n)%Z then XUnk
        else match xread_n (xread_loop e f tbl) (Z.to_nat n) b2 with
             | XRds l r => XRd (DSlotmap l) r
             | XStop l _ r => broken_table (Z.to_nat n) l r
             | XsBad => XBad
             | XsLoop => XLoop
             | XsUnk => XUnk
             end) = rhs) end.
  rewrite xt_varint_put by exact H.
  assert (Z.rem (Z.of_N (llen l)) 2 = 0%Z) as ->.
  { unfold llen. rewrite Ln. rewrite nat_N_Z, Nat2Z.inj_mul, Z.mul_comm. apply Z.rem_mul. discriminate. }
  cbn [Z.eqb negb]. destruct (Z.ltb_spec (Z.of_N (llen l)) 0); [lia|].
  destruct (Z.leb_spec (2 ^ 31) (Z.of_N (llen l))); [lia|]. cbn [orb].
  assert (Z.to_nat (Z.of_N (llen l)) = length l) as -> by (unfold llen; lia). now rewrite R.
Qed.
Lemma sends_choice l : short l -> Forall (fun x => snd_ (write_xtype e c x) x) l -> Forall (xstorable e K) l ->
  choice_ok (x_r e) l -> not_big (x_r e) l -> snd_ (write_choice c l (map (write_xtype e c) l)) (DChoice l).
Proof.
  intros Sh F St Ch Nb. destruct (short_63 l Sh) as [H H']. unfold write_choice.
  set (l' := map (fun i => nth i l D_VOID) (x_order c l)).
  pose proof (O l) as P.
  assert (P' : Permutation l' l) by (etransitivity; [apply Permutation_map, P|]; now rewrite map_nth_seq).
  assert (Q : map (fun i => nth i (map (write_xtype e c) l) wfail) (x_order c l) = map (write_xtype e c) l').
  { unfold l'. rewrite map_map. apply map_ext_in. intros i Hi. eapply Permutation_in in Hi; [|exact P].
    apply in_seq in Hi. rewrite (nth_indep _ wfail (write_xtype e c D_VOID)) by (rewrite map_length; lia).
    apply map_nth. }
  rewrite Q. apply (sends_counted _ _ _ l'); [exact H| |].
  - apply wall_sends. apply forall2_map; (eapply Permutation_Forall; [apply Permutation_sym, P'|]); assumption.
  - intros tbl f b rest R.
    match goal with |- _ = ?rhs => change ((let (n, b2) := xt_varint (put_varint (llen l) ++ b ++ rest) in
        if (n <? 0)%Z || (2 ^ 31 <=? n)%Z then XUnk
        else match xread_n (xread_loop e f tbl) (Z.to_nat n) b2 with
             | XRds l r => match xmake_choice (x_r e) l with Some v => XRd v r | None => XUnk end
             | XStop _ v r => XRd v r
             | XsBad => XBad
             | XsLoop => XLoop
             | XsUnk => XUnk
             end) = rhs) end.
    rewrite xt_varint_put by exact H. destruct (Z.ltb_spec (Z.of_N (llen l)) 0); [lia|].
    destruct (Z.leb_spec (2 ^ 31) (Z.of_N (llen l))); [lia|]. cbn [orb].
    assert (Z.to_nat (Z.of_N (llen l)) = length l') as -> by (rewrite (Permutation_length P'); unfold llen; lia).
    rewrite R, (xmake_choice_ok (x_r e) (proj1 E) l l'); auto. apply (choice_solid e K); auto.
Qed.
Lemma sends_qchoice l w x : snd_ w x -> (l = [] /\ x = DConst 3) \/ x = DChoice l ->
  snd_ (wafter [0x99; 0xB4] (fun r => let '((b, n), r') := w r in ((b, if (n <? 0)%Z then n else (n + 2)%Z), r')))
       (DQChoice l).
Proof.
  intros Hw Hx r Tr Kr. unfold wafter. specialize (Hw r Tr Kr). destruct (w r) as [[b n] r1].
  destruct Hw as (T1 & G1 & L1 & P1 & R1). destruct (Z.ltb_spec n 0); [lia|].
  split; [exact T1|]. split; [exact G1|]. split; [|split; [lia|]].
  - intros Ht. split; [discriminate|]. cbn [app length]. destruct (L1 Ht). lia.
  - intros tbl Ht f rest L. cbn [app length] in L. do 2 (destruct f as [|f]; [lia|]).
    assert (T : code_of_const e (x_first e + 3) = Some 0xB4) by (apply (code_of_tag e 3); lia).
    assert (Ab : abortp (DConst (x_first e + 3)) = false).
    { destruct E as (_ & _ & F1 & F2). unfold abortp. apply andb_false_intro2. apply N.leb_gt. lia. }
    assert (Ax : abortp x = false) by (destruct Hx as [[_ ->]| ->]; reflexivity).
    match goal with |- _ = ?rhs => change ((if abortp (DConst (x_first e + 3)) then XRd (DConst (x_first e + 3)) (b ++ rest)
       else read_tagged e (xread_loop e (S f) tbl) (DConst (x_first e + 3)) (b ++ rest)) = rhs) end.
    rewrite Ab. unfold read_tagged. rewrite T. rewrite R1 by (auto; lia). rewrite Ax. unfold restore_tagged. rewrite T.
    destruct Hx as [[-> ->]| ->]; reflexivity.
Qed.
Lemma sends_parts code i a b x : (i < 10)%nat -> nth_error tag_codes i = Some code ->
  code = 0xB0 \/ code = 0xB1 ->
  snd_ (write_xtype e c a) a -> snd_ (write_xtype e c b) b -> xstorable e K a -> xstorable e K b ->
  (forall rest, restore_tagged e (DConst (x_first e + N.of_nat i)) (DPair a b) rest = XRd x rest) ->
  snd_ (wafter [0x99; code; 0x98] (wall [write_xtype e c a; write_xtype e c b] 3)) x.
Proof.
  intros Hi Hc Hcode Ha Hb Sa Sb R.
  assert (F2 : Forall2 (fun w x => snd_ w x /\ abortp x = false) (map (write_xtype e c) [a; b]) [a; b])
    by (apply forall2_map; repeat (constructor; auto)).
  pose proof (xstorable_stop e K a E Sa) as Aa. pose proof (xstorable_stop e K b E Sb) as Ab.
  intros r Tr Kr. unfold wafter. pose proof (wall_sends e K _ _ F2 3 r Tr Kr) as Hw. cbn [map] in Hw.
  destruct (wall [write_xtype e c a; write_xtype e c b] 3 r) as [[bs n] r1].
  destruct Hw as (T1 & G1 & L1 & P1 & R1).
  split; [exact T1|]. split; [exact G1|]. split; [|split; [lia|]].
  - intros Ht. split; [discriminate|]. rewrite app_length, (L1 Ht). cbn [length]. lia.
  - intros tbl Ht f rest L. cbn [app length] in L. do 3 (destruct f as [|f]; [lia|]).
    specialize (R1 tbl Ht (S f) rest ltac:(lia)). cbn [length] in R1.
    apply xread_n_cons in R1. destruct R1 as (b1 & Ra & R1).
    apply xread_n_cons in R1. destruct R1 as (b2 & Rb & R1). cbn [xread_n] in R1. inversion R1; subst b2.
    set (tag := DConst (x_first e + N.of_nat i)) in *.
    assert (Rt : xread_loop e (S (S f)) tbl (code :: 0x98 :: bs ++ rest) = XRd tag (0x98 :: bs ++ rest)).
    { unfold tag. destruct Hcode as [-> | ->].
      - destruct i as [|i]; [reflexivity|]. do 9 (destruct i as [|i]; [discriminate Hc|]). lia.
      - destruct i as [|i]; [discriminate Hc|]. destruct i as [|i]; [reflexivity|].
        do 8 (destruct i as [|i]; [discriminate Hc|]). lia. }
    assert (At : abortp tag = false).
    { destruct E as (_ & _ & F1 & F3). unfold tag, abortp. apply andb_false_intro2. apply N.leb_gt. lia. }
    assert (Rp : xread_loop e (S (S f)) tbl (0x98 :: bs ++ rest) = XRd (DPair a b) rest).
    { match goal with |- _ = ?rhs => change (match xread_loop e (S f) tbl (bs ++ rest) with
        | XRd car r =>
          if abortp car then XRd car r
          else match xread_loop e (S f) tbl r with
          | XRd cdr r' => if abortp cdr then XRd cdr r' else XRd (DPair car cdr) r'
          | o => o
          end
        | o => o
        end = rhs) end.
      now rewrite Ra, Aa, Rb, Ab. }
    match goal with |- _ = ?rhs => change (match xread_loop e (S (S f)) tbl (code :: 0x98 :: bs ++ rest) with
        | XRd tag r => if abortp tag then XRd tag r else read_tagged e (xread_loop e (S (S f)) tbl) tag r
        | o => o
        end = rhs) end.
    rewrite Rt, At. unfold read_tagged. unfold tag at 1. rewrite code_of_tag by exact Hi. rewrite Hc.
    destruct Hcode as [-> | ->]; rewrite Rp; apply R.
Qed.
Lemma sends_compound t l : N.of_nat (length l) + 4 < 2 ^ 31 -> verbatim t l = None ->
  snd_ (write_xtype e c t) t -> Forall (fun x => snd_ (write_xtype e c x) x) l ->
  xstorable e K t -> Forall (xstorable e K) l ->
  snd_ (write_xtype e c (DCompound t l)) (DCompound t l).
Proof.
  intros Ln V Ht Hl St Sl. cbn [write_xtype]. rewrite V. unfold write_compound, plain_head. cbn [ch_annotated ch_seqoff].
  rewrite map_map || idtac.
  assert (HF : snd_ (wput [0x82]) (DConst 1)).
  { apply const_sends; [discriminate|]. intros tbl f rest L. fuel f L. reflexivity. }
  assert (L4 : llen (map (write_xtype e c) l) + 4 - 0 = llen l + 4) by (unfold llen; rewrite map_length; lia).
  rewrite L4. change (0 <=? -1)%Z with false. cbn iota. cbn [app].
  assert (H63 : llen l + 4 < 2 ^ 63).
  { unfold llen. change (2 ^ 31) with 2147483648 in Ln. change (2 ^ 63) with 9223372036854775808. lia. }
  apply (sends_counted _ _ _ (t :: DConst 1 :: DConst 1 :: DConst 1 :: l)); [exact H63| |].
  - apply wall_sends. constructor; [split; [exact Ht|now apply (xstorable_stop e K)]|].
    do 3 (constructor; [split; [exact HF|reflexivity]|]). now apply forall2_map.
  - intros tbl f b rest R. cbn [length] in R.
    apply xread_n_cons in R. destruct R as (b1 & R1 & R).
    apply xread_n_cons in R. destruct R as (b2 & R2 & R).
    apply xread_n_cons in R. destruct R as (b3 & R3 & R).
    apply xread_n_cons in R. destruct R as (b4 & R4 & R).
    match goal with |- _ = ?rhs => change (match read_compound (xread_loop e f tbl) (put_varint (llen l + 4) ++ b ++ rest) with
        | XComp h tag l r =>
          if (ch_seqoff h =? -1)%Z && negb (ch_annotated h) then XRd (DCompound tag l) r else XUnk
        | XNot o => o
        end = rhs) end.
    unfold read_compound. rewrite xt_varint_put by exact H63.
    destruct (Z.ltb_spec (Z.of_N (llen l + 4)) 4); [lia|].
    destruct (Z.leb_spec (2 ^ 31) (Z.of_N (llen l + 4))) as [Bad|].
    { exfalso. unfold llen in Bad. change (2 ^ 31) with 2147483648 in Ln. change (2 ^ 31)%Z with 2147483648%Z in Bad. lia. }
    rewrite R1, R2, R3, R4.
    assert (Z.to_nat (Z.of_N (llen l + 4) - 4) = length l) as -> by (unfold llen; lia).
    rewrite R. reflexivity.
Qed.

Theorem xround_trip x : xstorable e K x -> snd_ (write_xtype e c x) x.
Proof.
  assert (Ls : forall l, Forall (fun x => xstorable e K x -> snd_ (write_xtype e c x) x) l ->
    Forall (xstorable e K) l -> Forall (fun x => snd_ (write_xtype e c x) x) l).
  { induction 1; intros St; inversion St; constructor; auto. }
  induction x using dv_ind2; intros St; inversion St; subst; cbn [write_xtype].
  - now apply sends_const.
  - now apply sends_char.
  - now apply sends_symbol.
  - now apply sends_fixnum.
  - now apply sends_oid.
  - now apply sends_bigint.
  - now apply sends_flo.
  - apply (sends_parts 0xB0 0); auto; try reflexivity; [lia|].
    intros rest. unfold restore_tagged. rewrite (code_of_tag e 0) by lia. cbn [nth_error tag_codes].
    change (0xB0 =? 0xB4) with false. change (0xB0 =? 0xB0) with true. cbn iota. now apply (restore_rational_ok e K).
  - apply (sends_parts 0xB1 1); auto; try reflexivity; [lia|].
    intros rest. unfold restore_tagged. rewrite (code_of_tag e 1) by lia. cbn [nth_error tag_codes].
    change (0xB1 =? 0xB4) with false. change (0xB1 =? 0xB0) with false. change (0xB1 =? 0xB1) with true. cbn iota.
    now apply (restore_complex_ok e K).
  - now apply sends_str.
  - pose proof (sends_packet k s ltac:(assumption)) as P. destruct k; exact P.
  - eapply (sends_wafter e K [0x98] _ 1 [x1; x2]); [discriminate|lia|reflexivity| |].
    + apply (wall_sends e K [write_xtype e c x1; write_xtype e c x2] [x1; x2]).
      apply (forall2_map (write_xtype e c) [x1; x2]); repeat (constructor; auto).
    + intros tbl f b rest L R. cbn [length] in R.
      apply xread_n_cons in R. destruct R as (b1 & Ra & R).
      apply xread_n_cons in R. destruct R as (b2 & Rb & R). cbn [xread_n] in R. inversion R; subst b2.
      match goal with |- _ = ?rhs => change (match xread_loop e f tbl (b ++ rest) with
        | XRd car r =>
          if abortp car then XRd car r
          else match xread_loop e f tbl r with
          | XRd cdr r' => if abortp cdr then XRd cdr r' else XRd (DPair car cdr) r'
          | o => o
          end
        | o => o
        end = rhs) end.
      rewrite Ra, Rb. rewrite (xstorable_stop e K x1), (xstorable_stop e K x2); auto.
  - apply sends_vec; auto.
  - apply sends_choice; auto.
  - match goal with H : _ = [] \/ _ |- _ => destruct H as [->|[Hc Hn]] end.
    + apply (sends_qchoice [] (wput [0x83]) (DConst 3)); [|auto].
      apply const_sends; [discriminate|]. intros tbl f rest L. fuel f L. reflexivity.
    + destruct l as [|a l]; [destruct Hc as [Hc _]; cbn in Hc; lia|].
      apply (sends_qchoice (a :: l) (write_choice c (a :: l) (map (write_xtype e c) (a :: l))) (DChoice (a :: l))); [|auto].
      apply sends_choice; auto.
  - apply sends_compound; auto.
  - apply (sends_slotmap l n); auto.
Qed.
End RoundTrip.

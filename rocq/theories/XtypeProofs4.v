(** * Reading an xtype that was cut off. *)

From Coq Require Import NArith ZArith List Bool Lia Permutation Sorted.
From Verif Require Import SortModel BytesModel BytesProofs ValueModel ValueProofs ChoicesModel DtypeModel DtypeProofs
  DtypeProofs2 DtypeProofs3 DtypeProofs4 XtypeModel XtypeProofs XtypeProofs2 XtypeProofs3.
From Verif Require BigintProofs BigintProofs4 BigintProps NumbersProofs.
Import ListNotations.
Local Open Scope N_scope.

(** The end-of-data constant, an error constant, VOID, or a value that contains one. *)
Fixpoint xmarked (v : dv) : bool :=
  match v with
  | DConst n => (n =? 0) || (n =? 7) || ((8 <? n) && (n <? 19))
  | DPair a b | DRat a b | DCpx a b => xmarked a || xmarked b
  | DVec l | DSlotmap l => existsb xmarked l
  | DCompound t l => xmarked t || existsb xmarked l
  | _ => false
  end.
(** No choices, and no compounds without elements. *)
Fixpoint cuttable (v : dv) : bool :=
  match v with
  | DPair a b | DRat a b | DCpx a b => cuttable a && cuttable b
  | DVec l | DSlotmap l => forallb cuttable l
  | DCompound t l => negb (Nat.eqb (length l) 0) && cuttable t && forallb cuttable l
  | DChoice _ => false
  | DQChoice l => Nat.eqb (length l) 0
  | _ => true
  end.

Lemma abort_xmarked v : abortp v = true -> xmarked v = true.
Proof.
  destruct v; try discriminate. cbn [abortp xmarked]. intros H. apply orb_true_iff. right.
  apply andb_prop in H. apply andb_true_intro. rewrite ?N.leb_le, ?N.ltb_lt in *. lia.
Qed.
Lemma xmarked_storable e K v : xenv_ok e -> xstorable e K v -> xmarked v = false.
Proof.
  intros (_ & _ & F1 & F2).
  assert (L : forall l, Forall (fun v => xstorable e K v -> xmarked v = false) l ->
    Forall (xstorable e K) l -> existsb xmarked l = false).
  { induction 1 as [|a l Ha _ IH]; intros Sl; [reflexivity|]. inversion Sl; subst. cbn [existsb].
    rewrite Ha, IH by assumption. reflexivity. }
  induction v using dv_ind2; intros St; inversion St; subst; cbn [xmarked]; auto;
    rewrite ?IHv, ?IHv1, ?IHv2 by assumption; rewrite ?(L l) by assumption; auto.
  destruct (N.eqb_spec n 0); [lia|]. destruct (N.eqb_spec n 7); [lia|].
  destruct (N.ltb_spec 8 n); [|reflexivity]. destruct (N.ltb_spec n 19); [lia|reflexivity].
Qed.
Lemma xt_varint_cut n p q : n < 2 ^ 63 -> put_varint n = p ++ q -> q <> [] -> xt_varint p = ((-1)%Z, []).
Proof.
  intros Hn H Q. unfold xt_varint.
  assert (L : (length p < length (put_varint n))%nat) by (apply (cut_strict _ p q); auto).
  pose proof (read_varint_prefix n (length p) Hn L) as R. rewrite H, firstn_app_len in R. now rewrite R.
Qed.
Lemma xread_bytes_cut s p q k : s = p ++ q -> q <> [] -> xread_bytes (Z.of_N (llen s)) p k = XRd D_ERROR p.
Proof.
  intros H Q. unfold xread_bytes. destruct (Z.ltb_spec (Z.of_N (llen s)) 0); [lia|].
  rewrite req_short; [reflexivity|]. pose proof (cut_strict s p q H Q). unfold llen. lia.
Qed.
Lemma xread_n_stop rd n : forall b l v r, xread_n rd n b = XStop l v r -> abortp v = true /\ (length l < n)%nat.
Proof.
  induction n as [|n IH]; intros b l v r; cbn [xread_n]; [discriminate|].
  destruct (rd b) as [x b1| | |]; try discriminate. destruct (abortp x) eqn:A.
  - intros [= <- <- <-]. split; [exact A|cbn; lia].
  - destruct (xread_n rd n b1) as [l1 r1|l1 v1 r1| | |] eqn:R; try discriminate. intros [= <- <- <-].
    destruct (IH _ _ _ _ R). split; [assumption|cbn; lia].
Qed.
(** A varint at which the input is cut, or behind which it is cut. *)
Lemma cut_count n body p q (k : Z -> bytes -> xrd) (P : xrd -> Prop) : n < 2 ^ 63 ->
  put_varint n ++ body = p ++ q -> P (k (-1)%Z []) ->
  (forall p', body = p' ++ q -> p = put_varint n ++ p' -> P (k (Z.of_N n) p')) ->
  P (let (i, r) := xt_varint p in k i r).
Proof.
  intros Hn H P1 P2. destruct (cut _ _ _ _ H) as [L|(p' & -> & H')].
  - apply app_eq_app in H. destruct H as (m & [[H1 H2]|[H1 H2]]).
    + rewrite (xt_varint_cut n p m); auto. intros ->. rewrite app_nil_r in H1. rewrite H1 in L. lia.
    + exfalso. subst p. rewrite app_length in L. lia.
  - rewrite xt_varint_put by exact Hn. now apply P2.
Qed.

Section Cut.
Variables (e : xenv) (c : xconf).
Hypothesis E : xenv_ok e.
Hypothesis O : xconf_ok c.
Variable K : N -> N -> Prop.
Local Notation snd_ := (sends e K).

Definition gives (r : xrd) : Prop := match r with XRd v _ => xmarked v = true | _ => True end.
Definition cuts (w : writer) : Prop := forall r, tab_ok r -> kinds e r K -> forall tbl, reads (snd (w r)) tbl ->
  forall p q, fst (fst (w r)) = p ++ q -> q <> [] -> forall f, (length p <= f)%nat -> gives (xread_loop e f tbl p).
Definition cuts_all (w : writer) (l : list dv) : Prop := forall r, tab_ok r -> kinds e r K -> forall tbl, reads (snd (w r)) tbl ->
  forall p q, fst (fst (w r)) = p ++ q -> q <> [] -> forall f, (length p <= f)%nat ->
  match xread_n (xread_loop e f tbl) (length l) p with
  | XRds l' _ => existsb xmarked l' = true
  | XStop _ v _ => xmarked v = true
  | _ => True
  end.
Definition good (w : writer) (x : dv) : Prop := snd_ w x /\ abortp x = false /\ cuts w.
Lemma good_sends ws l : Forall2 good ws l -> Forall2 (fun w x => snd_ w x /\ abortp x = false) ws l.
Proof. induction 1 as [|w x ws l (A & B & _)]; constructor; auto. Qed.

Lemma wall_cuts ws l : Forall2 good ws l -> forall len, cuts_all (wall ws len) l.
Proof.
  induction 1 as [|w x ws l (Hw & Ha & Hc) F IH]; intros len r Tr Kr tbl Ht p q H Q f L.
  - cbn in H. destruct p; [|discriminate]. cbn in H. congruence.
  - cbn [wall] in Ht, H. specialize (Hw r Tr Kr). specialize (Hc r Tr Kr).
    destruct (w r) as [[b n] r1]. destruct Hw as (T1 & G1 & _ & P1 & R1).
    destruct (Z.ltb_spec n 0); [lia|].
    specialize (IH (len + n)%Z r1 T1 (kinds_grown e r r1 K G1 Kr)).
    destruct (wall ws (len + n) r1) as [[bs m] r2] eqn:W. cbn [fst snd] in *.
    assert (Ht1 : reads r1 tbl).
    { pose proof (wall_sends e K ws l (good_sends ws l F) (len + n)%Z r1 T1 (kinds_grown e r r1 K G1 Kr)) as S2.
      rewrite W in S2. eapply reads_before; [apply S2|exact Ht]. }
    cbn [length xread_n]. destruct (cut _ _ _ _ H) as [Lp|(p' & -> & H')].
    + apply app_eq_app in H. destruct H as (m' & [[H1 H2]|[H1 H2]]); [|exfalso; subst p; rewrite app_length in Lp; lia].
      assert (M : m' <> []) by (intros ->; rewrite app_nil_r in H1; subst p; lia).
      specialize (Hc tbl Ht1 p m' H1 M f L). unfold gives in Hc.
      destruct (xread_loop e f tbl p) as [v b1| | |]; auto.
      destruct (abortp v); [exact Hc|].
      destruct (xread_n (xread_loop e f tbl) (length l) b1) as [l' r'|l' v' r'| | |] eqn:E2; auto.
      * cbn [existsb]. now rewrite Hc.
      * apply abort_xmarked. now apply (xread_n_stop _ _ _ _ _ _ E2).
    + rewrite app_length in L. rewrite R1 by (auto; lia). rewrite Ha.
      specialize (IH tbl Ht p' q H' Q f ltac:(lia)).
      destruct (xread_n (xread_loop e f tbl) (length l) p'); auto. cbn [existsb]. rewrite IH. apply orb_true_r.
Qed.

Lemma wsome_cuts ws l : Forall2 good ws l -> forall len, cuts_all (wsome ws len) l.
Proof.
  intros F len r Tr Kr. pose proof (wall_cuts ws l F len r Tr Kr) as W.
  rewrite <- (wsome_wall e K ws l (good_sends ws l F) len r Tr Kr) in W. exact W.
Qed.

(** A header followed by elements. *)
Lemma cuts_wafter h w l : h <> [] -> cuts_all w l ->
  (forall tbl f p q, h = p ++ q -> q <> [] -> gives (xread_loop e (S f) tbl p)) ->
  (forall tbl f p, (length p <= f)%nat ->
     match xread_n (xread_loop e f tbl) (length l) p with
     | XRds l' _ => existsb xmarked l' = true
     | XStop _ v _ => xmarked v = true
     | _ => True
     end -> gives (xread_loop e (S f) tbl (h ++ p))) ->
  cuts (wafter h w).
Proof.
  intros Hh Hw R1 R2 r Tr Kr tbl Ht p q H Q f L. unfold wafter in *. specialize (Hw r Tr Kr tbl).
  destruct (w r) as [[b n] r1]. cbn [fst snd] in *. specialize (Hw Ht).
  destruct f as [|f].
  - destruct p; [|cbn in L; lia]. exact I.
  - destruct (cut _ _ _ _ H) as [Lp|(p' & -> & H')].
    + apply app_eq_app in H. destruct H as (m' & [[H1 H2]|[H1 H2]]); [|exfalso; subst p; rewrite app_length in Lp; lia].
      apply (R1 tbl f p m' H1). intros ->. rewrite app_nil_r in H1. subst p. lia.
    + destruct h as [|a h]; [congruence|]. cbn [app length] in L. rewrite app_length in L. apply R2; [lia|].
      apply (Hw p' q H' Q). lia.
Qed.
(** A writer that appends the same bytes whatever the table. *)
Lemma flat_cuts b n w : (forall r, w r = ((b, n), r)) ->
  (forall tbl f p q, b = p ++ q -> q <> [] -> gives (xread_loop e (S f) tbl p)) -> cuts w.
Proof.
  intros Hw R r Tr Kr tbl Ht p q H Q f L. rewrite Hw in H. cbn [fst] in H. destruct f as [|f].
  - destruct p; [|cbn in L; lia]. exact I.
  - now apply (R tbl f p q).
Qed.
Ltac start H := destruct (cut_cons _ _ _ _ H) as [->|(p1 & -> & X1)]; [reflexivity|].
Lemma one_cuts a : cuts (wput [a]).
Proof.
  eapply flat_cuts; [reflexivity|]. intros tbl f p q H Q. start H. destruct p1; [|discriminate]. elim Q. symmetry. exact X1.
Qed.
Lemma code_cuts code n : n < 2 ^ 63 -> code = 0x8C \/ code = 0x8D \/ code = 0x8E ->
  cuts (fun r => (wcode code n, r)).
Proof.
  intros Hn Hc. unfold wcode, wvarint. cbn [fst snd]. eapply flat_cuts; [reflexivity|].
  intros tbl f p q H Q. start H.
  assert (G : forall k, gives (let (ival, r0) := xt_varint p1 in if (ival <? 0)%Z then XRd D_ERROR r0 else k ival r0)).
  { intros k. rewrite (xt_varint_cut n p1 q); auto. reflexivity. }
  destruct Hc as [->|[->| ->]]; apply G.
Qed.
Lemma block_cuts code s : short s -> In code [0x90; 0x91; 0x92] -> cuts (write_block code s).
Proof.
  intros Sh Hc. destruct (short_63 s Sh) as [Hn _]. eapply flat_cuts; [reflexivity|].
  intros tbl f p q H Q. start H.
  assert (G : forall k, gives (let (len, b2) := xt_varint p1 in xread_bytes len b2 k)).
  { intros k. apply (cut_count (llen s) s p1 q (fun len b2 => xread_bytes len b2 k) gives); auto; [exact I|].
    intros p' H' _. rewrite (xread_bytes_cut s p' q) by auto. reflexivity. }
  destruct Hc as [<-|[<-|[<-|[]]]]; apply G.
Qed.
Lemma symbol_cuts s : short s -> cuts (write_symbol c s).
Proof.
  intros Sh. destruct (short_63 s Sh) as [Hn _].
  assert (Plain : forall tbl f p q, 0x93 :: put_varint (llen s) ++ s = p ++ q -> q <> [] -> gives (xread_loop e (S f) tbl p)).
  { intros tbl f p q H Q. start H.
    match goal with |- gives ?x => change (gives (let (len, b2) := xt_varint p1 in
      if (len <? 0)%Z then XRd D_ERROR b2
      else xread_bytes len b2 (fun s r => if has_nul s then XUnk else XRd (DSym s) r))) end.
    apply (cut_count (llen s) s p1 q (fun len b2 => if (len <? 0)%Z then XRd D_ERROR b2
      else xread_bytes len b2 (fun s r => if has_nul s then XUnk else XRd (DSym s) r)) gives); auto; [reflexivity|].
    intros p' H' _. destruct (Z.ltb_spec (Z.of_N (llen s)) 0); [lia|]. rewrite (xread_bytes_cut s p' q) by auto. reflexivity. }
  intros r Tr Kr tbl Ht p q H Q f L. destruct f as [|f]; [destruct p; [|cbn in L; lia]; exact I|].
  unfold write_symbol in *. destruct r as [t|]; [|now apply (Plain tbl f p q)].
  destruct (x_norefs c); [now apply (Plain tbl f p q)|].
  pose proof (xtype_ref_ok (DSym s) t Tr eq_refl) as P.
  destruct (xtype_ref (DSym s) t) as [[i|] t'] eqn:X; [|now apply (Plain tbl f p q)].
  destruct P as (P1 & P2 & P3). cbn [fst snd wcode wvarint] in *.
  destruct (reads_index K t' tbl i _ Ht P3) as (R & -> & Hi & Hn'). start H.
  match goal with |- gives ?x => change (gives (read_absref (Some R) p1)) end.
  unfold read_absref. rewrite (xt_varint_cut i p1 q); auto. exact I.
Qed.
Lemma oid_cuts hi lo : cuts (write_oid e c hi lo).
Proof.
  assert (Plain : forall tbl f p q, 0x89 :: put_4bytes hi ++ put_4bytes lo = p ++ q -> q <> [] ->
    gives (xread_loop e (S f) tbl p)).
  { intros tbl f p q H Q. start H.
    match goal with |- gives ?x => change (gives (match read_4bytes p1 with
        | None => XRd D_ERROR p1
        | Some (hi, b2) =>
          match read_4bytes b2 with
          | None => XRd D_ERROR b2
          | Some (lo, b3) => XRd (DOid hi lo) b3
          end
        end)) end.
    destruct (cut _ _ _ _ X1) as [L|(p' & -> & H')].
    - rewrite read_4bytes_short by exact L. reflexivity.
    - rewrite read_4bytes_put. apply cut_strict in H'; [|exact Q].
      rewrite read_4bytes_short by exact H'. reflexivity. }
  intros r Tr Kr tbl Ht p q H Q f L. destruct f as [|f]; [destruct p; [|cbn in L; lia]; exact I|].
  unfold write_oid in *. destruct r as [t|]; [|now apply (Plain tbl f p q)].
  destruct (x_norefs c); [now apply (Plain tbl f p q)|].
  destruct (do id <- oid_base_id e hi lo; base_key e id) as [base|] eqn:Hb; [|now apply (Plain tbl f p q)].
  assert (Kb : keyp base = true).
  { destruct (oid_base_id e hi lo) as [id|]; [|discriminate]. unfold base_key in Hb. now apply oid_at_key in Hb. }
  pose proof (xtype_ref_ok base t Tr Kb) as P.
  destruct (xtype_ref base t) as [[i|] t'] eqn:X; [|now apply (Plain tbl f p q)].
  destruct P as (P1 & P2 & P3). cbn [fst snd] in *.
  destruct (reads_index K t' tbl i _ Ht P3) as (R & -> & Hi & Hn'). start H.
  assert (Ho : oid_offset lo < 2 ^ 63).
  { rewrite off_mod. pose proof (N.mod_lt lo (2 ^ 20) ltac:(discriminate)).
    change (2 ^ 20) with 1048576 in *. change (2 ^ 63) with 9223372036854775808. lia. }
  match goal with |- gives ?x => change (gives (read_offref e (Some R) p1)) end. unfold read_offref.
  apply (cut_count (oid_offset lo) (put_varint i) p1 q _ gives); auto; [reflexivity|].
  intros p' H' _. destruct (Z.ltb_spec (Z.of_N (oid_offset lo)) 0); [lia|].
  rewrite (xt_varint_cut i p' q); auto. reflexivity.
Qed.
Lemma big_cuts b : xstorable e K (DBig b) -> cuts (write_bigint b).
Proof.
  intros St. inversion St as [| | | | |b' Nf Gt Lg| | | | | | | | | | |]; subst. unfold write_bigint.
  pose proof (proj1 (BigintProps.normal_norm b) Nf) as Nn.
  rewrite BigintProofs4.fits_in_word_spec by (auto; lia).
  destruct (B.bigint_to_digit_stream b 256) as [t|] eqn:T;
      [|destruct (BigintProps.C47_writing_exact b 256 Nf) as (t & T' & _); [lia|congruence]].
  assert (Lt : (Z.abs (BigintProofs.bval b) <? 2 ^ (32 - 1))%Z = false).
  { apply Z.ltb_ge. rewrite <- BigintProps.value_bval. unfold A.max_fixnum in *. change (2 ^ (32 - 1))%Z with 2147483648%Z. lia. }
  rewrite Lt.
  assert (Lc : (Z.of_nat (length t) + 1 < 2 ^ 31)%Z) by (apply (digits_count b t); auto).
  set (ds := flat_map put_byte (map Z.to_N (rev t))) in *.
  assert (Lp : llen t = llen ds).
  { unfold llen, ds. rewrite flat_put, map_length, rev_length. reflexivity. }
  assert (Hl : llen t < 2 ^ 63).
  { unfold llen. change (2 ^ 31)%Z with 2147483648%Z in Lc. change (2 ^ 63) with 9223372036854775808. lia. }
  rewrite Lp in *. eapply flat_cuts; [reflexivity|].
  intros tbl f p q H Q. start H.
  assert (G : forall neg, gives (read_big neg p1)).
  { intros neg. unfold read_big.
    apply (cut_count (llen ds) ds p1 q (fun n b1 => xread_bytes n b1 (fun digits r => restore_bigint digits neg r)) gives); auto; [exact I|].
    intros p' H' _. rewrite (xread_bytes_cut ds p' q) by auto. reflexivity. }
  destruct (B.bneg b); apply G.
Qed.

(** ** Structures *)

Lemma good_map l : Forall (fun x => cuts (write_xtype e c x)) l -> Forall (xstorable e K) l ->
  Forall2 good (map (write_xtype e c) l) l.
Proof.
  induction 1; intros Sl; inversion Sl; subst; constructor; auto. split; [now apply xround_trip|].
  split; [now apply (xstorable_stop e K)|assumption].
Qed.
Lemma counted_cuts code n w l (k : (bytes -> xrd) -> Z -> bytes -> xrd) : n < 2 ^ 63 ->
  (forall len, cuts_all (w len) l) ->
  (forall tbl f p, xread_loop e (S f) tbl (code :: p) = let (i, r) := xt_varint p in k (xread_loop e f tbl) i r) ->
  (forall rd, gives (k rd (-1)%Z [])) ->
  (forall rd p, match xread_n rd (length l) p with
     | XRds l' _ => existsb xmarked l' = true
     | XStop _ v _ => xmarked v = true
     | _ => True
     end -> gives (k rd (Z.of_N n) p)) ->
  cuts (wcounted code n w).
Proof.
  intros Hn Hw R K1 K2. unfold wcounted. apply (cuts_wafter _ _ l); [discriminate|apply Hw| |].
  - intros tbl f p q H Q. start H. rewrite R. rewrite (xt_varint_cut n p1 q); auto.
  - intros tbl f p L M. cbn [app]. rewrite R, xt_varint_put by exact Hn. now apply K2.
Qed.

(** Tags. *)
Lemma tagged_gives i data r : xmarked data = true -> i = 0%nat \/ i = 1%nat \/ i = 3%nat ->
  gives (restore_tagged e (DConst (x_first e + N.of_nat i)) data r).
Proof.
  intros M Hi. unfold restore_tagged. rewrite code_of_tag by lia.
  destruct Hi as [->|[->| ->]]; cbn [nth_error tag_codes].
  - change (0xB0 =? 0xB4) with false. change (0xB0 =? 0xB0) with true. cbn iota.
    destruct data; try exact I. cbn [xmarked] in M. unfold restore_rational.
    destruct (inum_of data1) as [x|] eqn:X1; [|reflexivity]. destruct (inum_of data2) as [y|] eqn:X2; [|reflexivity].
    destruct data1; try discriminate; destruct data2; discriminate.
  - change (0xB1 =? 0xB4) with false. change (0xB1 =? 0xB0) with false. change (0xB1 =? 0xB1) with true. cbn iota.
    destruct data; try exact I. cbn [xmarked] in M. unfold restore_complex.
    destruct data2; try exact M.
    + destruct (z =? 0)%Z; [|exact M]. cbn [gives]. now rewrite orb_false_r in M.
    + destruct (int_val _ =? 0)%Z; [exact I|exact M].
    + destruct (int_val data2_1 =? 0)%Z; [exact I|exact M].
    + exact I.
  - change (0xB4 =? 0xB4) with true. cbn iota.
    destruct data; try exact M; try discriminate M. destruct n as [|n]; [exact M|].
    destruct (N.eqb_spec (N.pos n) 3) as [H|H]; [injection H as ->; discriminate M|].
    destruct n as [[n|n|]|n|]; exact M.
Qed.
Lemma tagged_cuts code i w : i = 0%nat \/ i = 1%nat \/ i = 3%nat -> nth_error tag_codes i = Some code -> cuts w ->
  cuts (wafter [0x99; code] w).
Proof.
  intros Hi Hc Hw r Tr Kr tbl Ht p q H Q f L. unfold wafter in *. specialize (Hw r Tr Kr tbl).
  destruct (w r) as [[b n] r1]. cbn [fst snd] in *. specialize (Hw Ht).
  assert (I10 : (i < 10)%nat) by lia.
  destruct f as [|f]; [destruct p; [|cbn in L; lia]; exact I|]. cbn [app] in H. start H.
  assert (Gt : abortp (DConst (x_first e + N.of_nat i)) = false).
  { destruct E as (_ & _ & F1 & F3). unfold abortp. apply andb_false_intro2. apply N.leb_gt. lia. }
  destruct (cut_cons _ _ _ _ X1) as [->|(p2 & -> & X2)].
  - destruct f as [|f]; [exact I|].
    assert (C7 : code_of_const e 7 = None).
    { unfold code_of_const. destruct E as (_ & _ & F1 & _). destruct (N.ltb_spec 7 (x_first e)); [reflexivity|lia]. }
    match goal with |- gives ?x => change (gives (read_tagged e (xread_loop e (S f) tbl) D_EOD [])) end.
    unfold read_tagged. change (match D_EOD with DConst n => code_of_const e n | _ => None end) with (code_of_const e 7).
    rewrite C7. cbn iota. change (gives (restore_tagged e D_EOD D_EOD [])). unfold restore_tagged.
    change (match D_EOD with DConst n => code_of_const e n | _ => None end) with (code_of_const e 7).
    rewrite C7. destruct (restores (x_r e) D_EOD); [exact I|reflexivity].
  - cbn [length] in L. destruct f as [|f]; [lia|].
    assert (Rt : forall r, xread_loop e (S f) tbl (code :: r) = XRd (DConst (x_first e + N.of_nat i)) r).
    { intros r'. destruct Hi as [->|[->| ->]]; injection Hc as <-; reflexivity. }
    match goal with |- gives ?x => change (gives (match xread_loop e (S f) tbl (code :: p2) with
        | XRd tag r => if abortp tag then XRd tag r else read_tagged e (xread_loop e (S f) tbl) tag r
        | o => o end)) end.
    rewrite Rt, Gt. unfold read_tagged. rewrite code_of_tag by exact I10. rewrite Hc.
    specialize (Hw p2 q X2 Q (S f) ltac:(lia)).
    assert (G : gives (match xread_loop e (S f) tbl p2 with
      | XRd data r => if abortp data then XRd data r else restore_tagged e (DConst (x_first e + N.of_nat i)) data r
      | o => o end)).
    { destruct (xread_loop e (S f) tbl p2) as [v rr| | |]; try exact I. cbn [gives] in Hw.
      destruct (abortp v); [exact Hw|]. now apply tagged_gives. }
    destruct Hi as [->|[->| ->]]; injection Hc as <-; exact G.
Qed.
Lemma pair_cuts a b len : good (write_xtype e c a) a -> good (write_xtype e c b) b ->
  cuts (wafter [0x98] (wall [write_xtype e c a; write_xtype e c b] len)).
Proof.
  intros Ga Gb. apply (cuts_wafter _ _ [a; b]); [discriminate| | |].
  - apply wall_cuts. repeat constructor; apply Ga || apply Gb.
  - intros tbl f p q H Q. start H. destruct p1; [|discriminate]. elim Q. symmetry. exact X1.
  - intros tbl f p L M. cbn [app length xread_n] in *.
    match goal with |- gives ?x => change (gives (match xread_loop e f tbl p with
        | XRd car r =>
          if abortp car then XRd car r
          else match xread_loop e f tbl r with
          | XRd cdr r' => if abortp cdr then XRd cdr r' else XRd (DPair car cdr) r'
          | o => o
          end
        | o => o
        end)) end.
    destruct (xread_loop e f tbl p) as [x r1| | |]; try exact I. destruct (abortp x) eqn:Ax; [now apply abort_xmarked|].
    destruct (xread_loop e f tbl r1) as [y r2| | |]; try exact I. destruct (abortp y) eqn:Ay; [now apply abort_xmarked|].
    cbn [existsb] in M. now rewrite orb_false_r in M.
Qed.
Lemma vec_cuts l : short l -> Forall2 good (map (write_xtype e c) l) l -> cuts (write_xtype e c (DVec l)).
Proof.
  intros Sh G. destruct (short_63 l Sh) as [H H']. cbn [write_xtype].
  apply (counted_cuts _ _ _ l (fun rd n b2 =>
        if (n <? 0)%Z then XBad
        else if (2 ^ 31 <=? n)%Z then XUnk
        else match xread_n rd (Z.to_nat n) b2 with
             | XRds l r => XRd (DVec l) r
             | XStop _ v r => XRd v r
             | XsBad => XBad
             | XsLoop => XLoop
             | XsUnk => XUnk
             end)); [exact H| | | |].
  - now apply wsome_cuts.
  - reflexivity.
  - intros rd. exact I.
  - intros rd p M. destruct (Z.ltb_spec (Z.of_N (llen l)) 0); [lia|].
    destruct (Z.leb_spec (2 ^ 31) (Z.of_N (llen l))); [lia|].
    assert (Z.to_nat (Z.of_N (llen l)) = length l) as -> by (unfold llen; lia).
    destruct (xread_n rd (length l) p); try exact I; exact M.
Qed.
Lemma slotmap_cuts l n : short l -> length l = (2 * n)%nat -> Forall2 good (map (write_xtype e c) l) l ->
  cuts (write_xtype e c (DSlotmap l)).
Proof.
  intros Sh Ln G. destruct (short_63 l Sh) as [H H']. cbn [write_xtype].
  apply (counted_cuts _ _ _ l (fun rd n b2 =>
        if negb (Z.rem n 2 =? 0)%Z then XRd D_ERROR b2
        else if (n <? 0)%Z || (2 ^ 31 <=? n)%Z then XUnk
        else match xread_n rd (Z.to_nat n) b2 with
             | XRds l r => XRd (DSlotmap l) r
             | XStop l _ r => broken_table (Z.to_nat n) l r
             | XsBad => XBad
             | XsLoop => XLoop
             | XsUnk => XUnk
             end)); [exact H| | | |].
  - now apply wall_cuts.
  - reflexivity.
  - intros rd. reflexivity.
  - intros rd p M.
    destruct (negb (Z.rem (Z.of_N (llen l)) 2 =? 0)%Z); [reflexivity|].
    destruct ((Z.of_N (llen l) <? 0)%Z || (2 ^ 31 <=? Z.of_N (llen l))%Z); [exact I|].
    assert (Z.to_nat (Z.of_N (llen l)) = length l) as -> by (unfold llen; lia).
    destruct (xread_n rd (length l) p) as [l' r|l' v r| | |] eqn:R; try exact I; [exact M|].
    destruct (xread_n_stop _ _ _ _ _ _ R) as [_ Lt]. unfold broken_table.
    set (l1 := firstn (2 * (length l' / 2)) l').
    assert (Ll : (length l1 < length l)%nat) by (unfold l1; rewrite firstn_length; lia).
    destruct (existsb consp l1); [exact I|]. cbn [gives xmarked]. rewrite existsb_app.
    destruct (length l - length l1)%nat eqn:D; [lia|]. cbn [repeat existsb]. change (xmarked D_VOID) with true.
    now rewrite orb_true_r.
Qed.
Lemma compound_cuts t l : l <> [] -> N.of_nat (length l) + 4 < 2 ^ 31 -> verbatim t l = None ->
  good (write_xtype e c t) t -> Forall2 good (map (write_xtype e c) l) l ->
  cuts (write_xtype e c (DCompound t l)).
Proof.
  intros Ne Ln V Gt Gl. cbn [write_xtype]. rewrite V. unfold write_compound, plain_head. cbn [ch_annotated ch_seqoff].
  assert (GF : good (wput [0x82]) (DConst 1)).
  { split; [|split; [reflexivity|apply one_cuts]]. apply const_sends; [discriminate|]. intros tbl f rest L.
    destruct f as [|f]; [cbn in L; lia|]. reflexivity. }
  assert (L4 : llen (map (write_xtype e c) l) + 4 - 0 = llen l + 4) by (unfold llen; rewrite map_length; lia).
  rewrite L4. change (0 <=? -1)%Z with false. cbn iota. cbn [app].
  assert (H63 : llen l + 4 < 2 ^ 63).
  { unfold llen. change (2 ^ 31) with 2147483648 in Ln. change (2 ^ 63) with 9223372036854775808. lia. }
  intros r Tr Kr tbl Ht p q H Q f L. unfold wcounted, wafter in Ht, H.
  set (len := (1 + Z.of_N (write_varint_rv (llen l + 4)))%Z) in *.
  assert (Put : forall ws len r, wall (wput [0x82] :: ws) len r =
    let '((bs, m), r2) := wall ws (len + 1)%Z r in ((0x82 :: bs, m), r2)).
  { intros ws' len' r'. cbn [wall wput]. change (Z.of_nat (length [130])) with 1%Z. change (1 <? 0)%Z with false.
    cbn iota. destruct (wall ws' (len' + 1) r') as [[? ?] ?]. reflexivity. }
  destruct Gt as (St & At & Ct). specialize (St r Tr Kr). specialize (Ct r Tr Kr tbl).
  remember (wput [0x82] :: wput [0x82] :: wput [0x82] :: map (write_xtype e c) l) as ws.
  cbn [wall] in Ht, H. destruct (write_xtype e c t r) as [[bt nt] r1]. destruct St as (T1 & G1 & _ & P1 & R1).
  destruct (Z.ltb_spec nt 0); [lia|]. subst ws. rewrite !Put in Ht, H.
  set (len3 := (len + nt + 1 + 1 + 1)%Z) in *.
  pose proof (wall_cuts _ _ Gl len3 r1 T1 (kinds_grown e r r1 K G1 Kr) tbl) as Cl.
  pose proof (wall_sends e K _ _ (good_sends _ _ Gl) len3 r1 T1 (kinds_grown e r r1 K G1 Kr)) as Sl.
  destruct (wall (map (write_xtype e c) l) len3 r1) as [[bs m] r2]. destruct Sl as (_ & G2 & _). cbn [fst snd] in *.
  specialize (Cl Ht). specialize (R1 tbl (reads_before r1 r2 tbl G2 Ht)).
  specialize (Ct (reads_before r1 r2 tbl G2 Ht)).
  destruct f as [|f]; [destruct p; [|cbn in L; lia]; exact I|]. cbn [app] in H. start H. cbn [length] in L.
  match goal with |- gives ?x => change (gives (match read_compound (xread_loop e f tbl) p1 with
        | XComp h tag l r =>
          if (ch_seqoff h =? -1)%Z && negb (ch_annotated h) then XRd (DCompound tag l) r else XUnk
        | XNot o => o
        end)) end.
  set (rd := xread_loop e f tbl) in *.
  assert (Fin : forall h tag l r, xmarked (DCompound tag l) = true ->
    gives (if (ch_seqoff h =? -1)%Z && negb (ch_annotated h) then XRd (DCompound tag l) r else XUnk)).
  { intros h tag l' r' M. destruct (_ && _); [exact M|exact I]. }
  unfold read_compound.
  destruct (cut _ _ _ _ X1) as [Lp|(p2 & -> & X2)].
  { apply app_eq_app in X1. destruct X1 as (m' & [[H1 H2]|[H1 H2]]).
    - rewrite (xt_varint_cut _ p1 m' H63 H1); [reflexivity|]. intros ->. rewrite app_nil_r in H1. rewrite H1 in Lp. lia.
    - exfalso. subst p1. rewrite app_length in Lp. lia. }
  rewrite xt_varint_put by exact H63.
  destruct (Z.ltb_spec (Z.of_N (llen l + 4)) 4); [lia|].
  destruct (Z.leb_spec (2 ^ 31) (Z.of_N (llen l + 4))); [exact I|].
  assert (Z.to_nat (Z.of_N (llen l + 4) - 4) = length l) as -> by (unfold llen; lia).
  rewrite app_length in L.
  destruct (cut _ _ _ _ X2) as [Lp|(p3 & -> & X3)].
  - apply app_eq_app in X2. destruct X2 as (m' & [[J1 J2]|[J1 J2]]); [|exfalso; subst p2; rewrite app_length in Lp; lia].
    assert (Nm : m' <> []) by (intros ->; rewrite app_nil_r in J1; rewrite J1 in Lp; lia).
    specialize (Ct p2 m' J1 Nm f ltac:(lia)). fold rd in Ct.
    destruct (rd p2) as [tag b2| | |]; try exact I. cbn [gives] in Ct.
    destruct (rd b2) as [hl b3| | |]; try exact I. destruct (rd b3) as [sc b4| | |]; try exact I.
    destruct (rd b4) as [tb b5| | |]; try exact I.
    destruct (xread_n rd (length l) b5) as [l' r'|l' v' r'| | |] eqn:X; try exact I.
    + apply Fin. cbn [xmarked]. now rewrite Ct.
    + apply abort_xmarked. now apply (xread_n_stop _ _ _ _ _ _ X).
  - rewrite app_length in L. assert (Rt : rd (bt ++ p3) = XRd t p3) by (apply R1; lia). rewrite Rt.
    unfold bytes, byte in *.
    assert (End : rd [] = XRd D_EOD [] \/ exists x, rd [] = x /\ x = XUnk).
    { unfold rd. destruct f; [right; eexists; split; [reflexivity|reflexivity]|now left]. }
    assert (R82 : forall b, rd (0x82 :: b) = XRd (DConst 1) b \/ rd (0x82 :: b) = XUnk).
    { intros b. unfold rd. destruct f; [now right|now left]. }
    assert (Nil : rd [] = XRd D_EOD [] -> exists l', xread_n rd (length l) [] = XRds l' [] /\ existsb xmarked l' = true).
    { intros R0. destruct l as [|a l0]; [congruence|]. cbn [length]. 
      assert (J : forall n, exists l', xread_n rd n [] = XRds l' []).
      { induction n as [|n [l' IH]]; [now exists []|]. cbn [xread_n]. unfold bytes, byte in *. rewrite R0. change (abortp D_EOD) with false.
        cbn iota. rewrite IH. eauto. }
      cbn [xread_n]. unfold bytes, byte in *. rewrite R0. change (abortp D_EOD) with false. cbn iota.
      destruct (J (length l0)) as (l' & ->). eexists. split; [reflexivity|reflexivity]. }
    assert (Short : rd [] = XRd D_EOD [] -> forall h, gives
      match match xread_n rd (length l) [] with
          | XRds l r => XComp h t (if tablep D_EOD then D_EOD :: l else l) r
          | XStop _ v r => XNot (XRd v r)
          | XsBad => XNot XBad
          | XsLoop => XNot XLoop
          | XsUnk => XNot XUnk
          end with
        | XComp h tag l r =>
          if (ch_seqoff h =? -1)%Z && negb (ch_annotated h) then XRd (DCompound tag l) r else XUnk
        | XNot o => o
        end).
    { intros R0 h. destruct (Nil R0) as (l' & -> & Ml). apply Fin. cbn [tablep xmarked D_EOD]. rewrite Ml. apply orb_true_r. }
    destruct (cut_cons _ _ _ _ X3) as [->|(p4 & -> & X4)].
    { unfold bytes, byte in *. destruct End as [R0|(x & -> & ->)]; [|exact I]. rewrite !R0. now apply Short. }
    unfold bytes, byte in *. destruct (R82 p4) as [-> | ->]; [|exact I].
    destruct (cut_cons _ _ _ _ X4) as [->|(p5 & -> & X5)].
    { unfold bytes, byte in *. destruct End as [R0|(x & -> & ->)]; [|exact I]. rewrite !R0. now apply Short. }
    unfold bytes, byte in *. destruct (R82 p5) as [-> | ->]; [|exact I].
    destruct (cut_cons _ _ _ _ X5) as [->|(p6 & -> & X6)].
    { unfold bytes, byte in *. destruct End as [R0|(x & -> & ->)]; [|exact I]. rewrite !R0. now apply Short. }
    unfold bytes, byte in *. destruct (R82 p6) as [-> | ->]; [|exact I]. cbn [length] in L.
    specialize (Cl p6 q X6 Q f ltac:(lia)). fold rd in Cl.
    destruct (xread_n rd (length l) p6) as [l' r'|l' v' r'| | |]; try exact I; [|exact Cl].
    apply Fin. change (tablep (DConst 1)) with false. cbn [xmarked]. rewrite Cl. apply orb_true_r.
Qed.

Theorem xcut x : xstorable e K x -> cuttable x = true -> cuts (write_xtype e c x).
Proof.
  assert (Ls : forall l, Forall (fun x => xstorable e K x -> cuttable x = true -> cuts (write_xtype e c x)) l ->
    Forall (xstorable e K) l -> forallb cuttable l = true -> Forall2 good (map (write_xtype e c) l) l).
  { intros l F Sl Cl. apply good_map; [|exact Sl]. revert Sl Cl.
    induction F; intros Sl Cl; constructor; inversion Sl; subst; cbn [forallb] in Cl; apply andb_prop in Cl; tauto. }
  assert (Gd : forall x, xstorable e K x -> cuts (write_xtype e c x) -> good (write_xtype e c x) x).
  { intros y Sy Cy. split; [now apply xround_trip|]. split; [now apply (xstorable_stop e K)|exact Cy]. }
  assert (Parts : forall code i a b, i = 0%nat \/ i = 1%nat \/ i = 3%nat -> nth_error tag_codes i = Some code ->
    good (write_xtype e c a) a -> good (write_xtype e c b) b ->
    cuts (wafter [0x99; code; 0x98] (wall [write_xtype e c a; write_xtype e c b] 3))).
  { intros code i a b Hi Hc Ga Gb. pose proof (tagged_cuts code i _ Hi Hc (pair_cuts a b 3 Ga Gb)) as T.
    intros r Tr Kr tbl Ht p q H Q f L. specialize (T r Tr Kr tbl). unfold wafter in *.
    destruct (wall [write_xtype e c a; write_xtype e c b] 3 r) as [[b1 n1] r1]. exact (T Ht p q H Q f L). }
  induction x using dv_ind2; intros St Ct; pose proof St as St'; inversion St'; subst; cbn [write_xtype];
    cbn [cuttable] in Ct; try discriminate.
  - unfold write_const.
    destruct (N.eqb_spec n 1); [apply one_cuts|]. destruct (N.eqb_spec n 2); [apply one_cuts|].
    destruct (N.eqb_spec n 3); [apply one_cuts|]. destruct (N.eqb_spec n 4); [apply one_cuts|].
    destruct (N.eqb_spec n 5); [apply one_cuts|].
    destruct ((n =? 0) || (n =? 23)) eqn:B; [apply one_cuts|].
    destruct (code_of_const e n) eqn:Cn; [apply one_cuts|]. exfalso.
    apply orb_false_iff in B. rewrite !N.eqb_neq in B. destruct E as (_ & _ & F1 & F2).
    unfold code_of_const in Cn. destruct (N.ltb_spec n (x_first e)).
    + lia.
    + apply nth_error_None in Cn. cbn [length tag_codes] in Cn. lia.
  - apply code_cuts; [|auto]. match goal with H : _ < 2 ^ 23 |- _ => change (2 ^ 23) with 8388608 in H end.
    change (2 ^ 63) with 9223372036854775808. lia.
  - now apply symbol_cuts.
  - unfold write_fixnum. match goal with H : (_ <= _ <= _)%Z |- _ => unfold A.min_fixnum, A.max_fixnum in H end.
    destruct (z <? 0)%Z; (apply code_cuts; [change (2 ^ 63) with 9223372036854775808; lia|auto]).
  - apply oid_cuts.
  - now apply big_cuts.
  - eapply flat_cuts; [reflexivity|]. intros tbl f p q H Q. start H.
    match goal with |- gives ?x => change (gives (xread_bytes (Z.of_N (llen (put_8bytes w))) p1
      (fun w r => match get8 w with Some n => XRd (DFlo n) r | None => XUnk end))) end.
    rewrite (xread_bytes_cut (put_8bytes w) p1 q) by auto. reflexivity.
  - apply andb_prop in Ct. apply (Parts 0xB0 0%nat); auto; apply Gd; tauto.
  - apply andb_prop in Ct. apply (Parts 0xB1 1%nat); auto; apply Gd; tauto.
  - apply block_cuts; [assumption|cbn; auto].
  - destruct k; (apply block_cuts; [assumption|cbn; auto]).
  - apply andb_prop in Ct. apply pair_cuts; apply Gd; tauto.
  - apply vec_cuts; auto.
  - destruct l; [|discriminate]. pose proof (tagged_cuts 0xB4 3 (wput [0x83]) ltac:(auto) eq_refl (one_cuts 0x83)) as T.
    exact T.
  - apply andb_prop in Ct. destruct Ct as [Ct Cl]. apply andb_prop in Ct. destruct Ct as [Ne Ct].
    apply compound_cuts; auto. intros ->. discriminate.
  - eapply slotmap_cuts; eauto.
Qed.
End Cut.

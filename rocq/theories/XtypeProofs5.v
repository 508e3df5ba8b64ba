(** * The number returned by the xtype writer; the validator. *)

From Coq Require Import NArith ZArith List Bool Lia Permutation Sorted.
From Verif Require Import SortModel BytesModel BytesProofs ValueModel ValueProofs ChoicesModel DtypeModel DtypeProofs
  DtypeProofs2 DtypeProofs3 DtypeProofs4 XtypeModel XtypeProofs XtypeProofs2 XtypeProofs3 XtypeProofs4.
From Verif Require BigintProofs BigintProofs4 BigintProps NumbersProofs.
Import ListNotations.
Local Open Scope N_scope.

Section Size.
Variables (e : xenv) (c : xconf).
Hypothesis O : xconf_ok c.

Definition small (r : option xrefs) : Prop :=
  match r with None => True | Some t => N.of_nat (length (r_refs t)) < 2 ^ 63 end.

Definition opaquep : bool := match x_opaque c with Some _ => true | None => false end.
(** Values all parts of which have an xtype. *)
Fixpoint xwritable (x : dv) : bool :=
  match x with
  | DConst n => existsb (N.eqb n) [0; 1; 2; 3; 4; 5; 23]
                || match code_of_const e n with Some _ => true | None => false end || opaquep
  | DMystery _ _ _ _ _ | DOther _ _ => opaquep
  | DChoice l | DQChoice l | DVec l | DSlotmap l | DSchemap l | DHashtable _ l | DHashset _ l => forallb xwritable l
  | DPair a b | DRat a b | DCpx a b => xwritable a && xwritable b
  | DCompound t l => match verbatim t l with Some _ => true | None => xwritable t && forallb xwritable l end
  | _ => true
  end.
(** Values in which all vectors and schemaps have parts that can be written. *)
Fixpoint strict (x : dv) : bool :=
  match x with
  | DVec l | DSchemap l => forallb xwritable l
  | DChoice l | DQChoice l | DSlotmap l | DHashtable _ l | DHashset _ l => forallb strict l
  | DPair a b | DRat a b | DCpx a b => strict a && strict b
  | DCompound t l => strict t && forallb strict l
  | _ => true
  end.
(** Lengths, characters and numbers within the limits of the machine. *)
Fixpoint xsized (x : dv) : Prop :=
  match x with
  | DConst _ | DOid _ _ | DFlo _ | DMystery _ _ _ _ _ | DOther _ _ => True
  | DChar n => n < 2 ^ 63
  | DFix z => (Z.abs z < 2 ^ 63)%Z
  | DSym s | DStr s | DPacket _ s => llen s < 2 ^ 63
  | DBig b => BigintProps.normal_form b /\ (2 ^ 31 <= Z.abs (BigintProps.value b))%Z
              /\ forall t, B.bigint_to_digit_stream b 256 = Some t -> llen t < 2 ^ 63
  | DPair a b | DRat a b | DCpx a b => xsized a /\ xsized b
  | DChoice l | DQChoice l | DVec l | DSlotmap l | DHashtable _ l | DHashset _ l =>
      llen l < 2 ^ 63 /\ fold_right and True (map xsized l)
  | DSchemap l => llen l < 2 ^ 63 /\ Nat.even (length l) = true /\ fold_right and True (map xsized l)
  | DCompound t l => llen l + 4 < 2 ^ 63 /\ xsized t /\ fold_right and True (map xsized l)
  end.
Definition opaque_sized : Prop := forall f x, x_opaque c = Some f -> llen (f x) < 2 ^ 63.
Hypothesis Sz : opaque_sized.

(** [wr]: it can be written; [st]: if it cannot be written, that is reported. *)
Definition sizes (w : writer) (wr st : bool) : Prop := forall r, tab_ok r ->
  match w r with
  | ((b, n), r') => tab_ok r' /\ tab_grown r r'
    /\ (wr = true -> (0 <= n)%Z /\ (small r' -> n = Z.of_nat (length b)))
    /\ (wr = false -> st = true -> (n < 0)%Z)
  end.
Definition sizes_all (w : writer) (len : Z) (wr st : bool) : Prop := forall r, tab_ok r ->
  match w r with
  | ((b, n), r') => tab_ok r' /\ tab_grown r r'
    /\ (wr = true -> (len <= n)%Z /\ (small r' -> n = (len + Z.of_nat (length b))%Z))
    /\ (wr = false -> st = true -> (n < 0)%Z)
  end.
Lemma small_before r r' : tab_grown r r' -> small r' -> small r.
Proof.
  destruct r as [t|], r' as [t'|]; cbn; try tauto. intros [[s Hs] _] H. rewrite Hs, app_length in H. lia.
Qed.
Lemma wall_sizes ws ps : Forall2 (fun w p => sizes w (fst p) (snd p)) ws ps ->
  forall len, sizes_all (wall ws len) len (forallb fst ps) (forallb snd ps).
Proof.
  induction 1 as [|w [wr st] ws ps Hw _ IH]; intros len r Tr.
  - cbn [wall forallb]. split; [exact Tr|]. split; [apply tab_grown_refl|]. split; [|discriminate].
    intros _. cbn. split; lia.
  - cbn [wall forallb fst snd] in *. specialize (Hw r Tr). destruct (w r) as [[b n] r1]. destruct Hw as (T1 & G1 & W1 & N1).
    destruct (Z.ltb_spec n 0).
    + split; [exact T1|]. split; [exact G1|]. split; [|auto]. intros A. apply andb_prop in A. destruct A as [-> _]. lia.
    + specialize (IH (len + n)%Z r1 T1). destruct (wall ws (len + n) r1) as [[bs m] r2]. destruct IH as (T2 & G2 & W2 & N2).
      split; [exact T2|]. split; [eapply tab_grown_trans; eauto|]. split.
      * intros A. apply andb_prop in A. destruct A as [-> A]. destruct (W1 eq_refl) as [_ W1']. destruct (W2 A) as [W2' W2''].
        split; [lia|]. intros Sm. rewrite app_length. rewrite (W2'' Sm). specialize (W1' (small_before r1 r2 G2 Sm)). lia.
      * intros A B. apply andb_prop in B. destruct B as [-> B]. destruct wr; [|specialize (N1 eq_refl eq_refl); lia].
        cbn [andb] in A. auto.
Qed.
Lemma wsome_sized ws ps : Forall2 (fun w p => sizes w (fst p) (snd p)) ws ps -> forallb fst ps = true ->
  forall len r, tab_ok r -> wsome ws len r = wall ws len r.
Proof.
  induction 1 as [|w [wr st] ws ps Hw _ IH]; intros A len r Tr; [reflexivity|]. cbn [wall wsome forallb fst snd] in *.
  apply andb_prop in A. destruct A as [-> A]. specialize (Hw r Tr). destruct (w r) as [[b n] r1].
  destruct Hw as (T1 & G1 & W1 & _). destruct (W1 eq_refl) as [P _]. destruct (Z.ltb_spec n 0); [lia|].
  assert ((if (0 <? n)%Z then (len + n)%Z else len) = (len + n)%Z) as -> by (destruct (Z.ltb_spec 0 n); lia).
  now rewrite IH.
Qed.
Lemma wpairs_sized k : forall ws ps, length ws = (2 * k)%nat ->
  Forall2 (fun w p => sizes w (fst p) (snd p)) ws ps -> forallb fst ps = true ->
  forall len r, tab_ok r -> wpairs ws len r = wall ws len r.
Proof.
  induction k as [|k IH]; intros ws ps L F A len r Tr.
  - destruct ws; [reflexivity|discriminate].
  - destruct ws as [|w1 [|w2 ws]]; [cbn in L; lia|cbn in L; lia|]. inversion F as [|? [p1 s1] ? ps1 Hw1 F1]; subst.
    inversion F1 as [|? [p2 s2] ? ps2 Hw2 F2]; subst. cbn [forallb fst snd] in *.
    apply andb_prop in A. destruct A as [-> A]. apply andb_prop in A. destruct A as [-> A]. cbn [wpairs wall].
    specialize (Hw1 r Tr). destruct (w1 r) as [[b1 n1] r1]. destruct Hw1 as (T1 & G1 & W1 & _).
    destruct (W1 eq_refl) as [P1 _]. destruct (Z.ltb_spec n1 0); [lia|].
    specialize (Hw2 r1 T1). destruct (w2 r1) as [[b2 n2] r2]. destruct Hw2 as (T2 & G2 & W2 & _).
    destruct (W2 eq_refl) as [P2 _]. destruct (Z.ltb_spec n2 0); [lia|].
    rewrite (IH ws ps2) by (auto; cbn in L; lia). destruct (wall ws (len + n1 + n2) r2) as [[bs m] r3]. reflexivity.
Qed.

Lemma flat_sizes b n w : (forall r, w r = ((b, n), r)) -> n = Z.of_nat (length b) -> forall st, sizes w true st.
Proof.
  intros Hw Hn st r Tr. rewrite Hw. split; [exact Tr|]. split; [apply tab_grown_refl|]. split; [|discriminate].
  intros _. split; [lia|auto].
Qed.
Lemma put_sizes b st : sizes (wput b) true st.
Proof. eapply flat_sizes; reflexivity. Qed.
Lemma fail_sizes st : sizes wfail false st.
Proof. intros r Tr. cbn. split; [exact Tr|]. split; [apply tab_grown_refl|]. split; [discriminate|]. intros; lia. Qed.
Lemma code_sizes code n st : n < 2 ^ 63 -> sizes (fun r => (wcode code n, r)) true st.
Proof.
  intros H. unfold wcode, wvarint. cbn [fst snd]. eapply flat_sizes; [reflexivity|]. rewrite varint_rv by exact H. cbn [length]. lia.
Qed.
Lemma block_sizes code s st : llen s < 2 ^ 63 -> sizes (write_block code s) true st.
Proof.
  intros H. eapply flat_sizes; [reflexivity|]. rewrite varint_rv by exact H. cbn [length]. rewrite app_length. unfold llen, bytes, byte in *. lia.
Qed.
Lemma fixnum_sizes z st : (Z.abs z < 2 ^ 63)%Z -> sizes (write_fixnum z) true st.
Proof.
  change (2 ^ 63)%Z with 9223372036854775808%Z. intros H. unfold write_fixnum. destruct (Z.ltb_spec z 0);
    apply code_sizes; change (2 ^ 63) with 9223372036854775808; lia.
Qed.
Lemma symbol_sizes s st : llen s < 2 ^ 63 -> sizes (write_symbol c s) true st.
Proof.
  intros H r Tr. unfold write_symbol.
  assert (Plain : (0 <= 1 + Z.of_N (write_varint_rv (llen s)) + Z.of_N (llen s))%Z
     /\ (1 + Z.of_N (write_varint_rv (llen s)) + Z.of_N (llen s))%Z = Z.of_nat (length (0x93 :: put_varint (llen s) ++ s))).
  { split; [lia|]. rewrite varint_rv by exact H. cbn [length]. rewrite app_length. unfold llen, bytes, byte in *. lia. }
  destruct r as [t|]; [|split; [exact I|]; split; [exact I|]; split; [tauto|discriminate]].
  destruct (x_norefs c). { split; [exact Tr|]. split; [apply tab_grown_refl|]. split; [tauto|discriminate]. }
  pose proof (xtype_ref_ok (DSym s) t Tr eq_refl) as P.
  destruct (xtype_ref (DSym s) t) as [[i|] t'] eqn:X; destruct P as (P1 & P2 & P3).
  - unfold wcode, wvarint. cbn [fst snd]. split; [exact P1|]. split; [exact P2|]. split; [|discriminate]. intros _.
    split; [lia|]. intros Sm. cbn [small] in Sm.
    assert (i < 2 ^ 63). { assert (N.to_nat i < length (r_refs t'))%nat by (apply nth_error_Some; congruence). lia. }
    rewrite varint_rv by assumption. cbn [length]. lia.
  - split; [exact P1|]. split; [exact P2|]. split; [tauto|discriminate].
Qed.
Lemma oid_sizes hi lo st : sizes (write_oid e c hi lo) true st.
Proof.
  intros r Tr. unfold write_oid.
  assert (Plain : (0 <= 9)%Z /\ 9%Z = Z.of_nat (length (0x89 :: put_4bytes hi ++ put_4bytes lo))) by (split; [lia|reflexivity]).
  destruct r as [t|]; [|split; [exact I|]; split; [exact I|]; split; [tauto|discriminate]].
  destruct (x_norefs c). { split; [exact Tr|]. split; [apply tab_grown_refl|]. split; [tauto|discriminate]. }
  destruct (do id <- oid_base_id e hi lo; base_key e id) as [base|] eqn:Hb.
  2: { split; [exact Tr|]. split; [apply tab_grown_refl|]. split; [tauto|discriminate]. }
  assert (Kb : keyp base = true).
  { destruct (oid_base_id e hi lo) as [id|]; [|discriminate]. unfold base_key in Hb. now apply oid_at_key in Hb. }
  pose proof (xtype_ref_ok base t Tr Kb) as P.
  destruct (xtype_ref base t) as [[i|] t'] eqn:X; destruct P as (P1 & P2 & P3).
  - split; [exact P1|]. split; [exact P2|]. split; [|discriminate]. intros _. split; [lia|]. intros Sm. cbn [small] in Sm.
    assert (i < 2 ^ 63). { assert (N.to_nat i < length (r_refs t'))%nat by (apply nth_error_Some; congruence). lia. }
    assert (Ho : oid_offset lo < 2 ^ 63).
    { rewrite off_mod. pose proof (N.mod_lt lo (2 ^ 20) ltac:(discriminate)).
      change (2 ^ 20) with 1048576 in *. change (2 ^ 63) with 9223372036854775808. lia. }
    rewrite !varint_rv by assumption. cbn [length]. rewrite app_length. lia.
  - split; [exact P1|]. split; [exact P2|]. split; [tauto|discriminate].
Qed.
Lemma after_sizes h w len wr st : len = Z.of_nat (length h) -> sizes_all w len wr st -> sizes (wafter h w) wr st.
Proof.
  intros Hl Hw r Tr. unfold wafter. specialize (Hw r Tr). destruct (w r) as [[b n] r1]. destruct Hw as (T1 & G1 & W1 & N1).
  split; [exact T1|]. split; [exact G1|]. split; [|exact N1]. intros A. destruct (W1 A) as [W2 W3].
  split; [lia|]. intros Sm. rewrite app_length, (W3 Sm). lia.
Qed.
Lemma after2_sizes h w wr st : length h = 2%nat -> sizes w wr st ->
  sizes (wafter h (fun r => let '((b, n), r') := w r in ((b, if (n <? 0)%Z then n else (n + 2)%Z), r'))) wr st.
Proof.
  intros Hl Hw r Tr. unfold wafter. specialize (Hw r Tr). destruct (w r) as [[b n] r1]. destruct Hw as (T1 & G1 & W1 & N1).
  split; [exact T1|]. split; [exact G1|]. split.
  - intros A. destruct (W1 A) as [W2 W3]. destruct (Z.ltb_spec n 0); [lia|]. split; [lia|]. intros Sm.
    rewrite app_length, Hl, (W3 Sm). lia.
  - intros A B. specialize (N1 A B). destruct (Z.ltb_spec n 0); lia.
Qed.
Lemma counted_sizes code n w wr st : n < 2 ^ 63 -> (forall len, sizes_all (w len) len wr st) -> sizes (wcounted code n w) wr st.
Proof.
  intros H Hw. unfold wcounted. eapply after_sizes; [|apply Hw]. rewrite varint_rv by exact H. cbn [length]. lia.
Qed.
Lemma opaque_sizes srep st : llen srep < 2 ^ 63 -> sizes (write_opaque c srep) true st.
Proof.
  intros H. assert (G : sizes (write_opaque c srep) true true).
  2: { intros r Tr. specialize (G r Tr). destruct (write_opaque c srep r) as [[b n] r']. destruct G as (G1 & G2 & G3 & _).
       split; [exact G1|]. split; [exact G2|]. split; [exact G3|discriminate]. }
  unfold write_opaque. apply (after_sizes _ _ 1); [reflexivity|].
  apply (wall_sizes _ [(true, true); (true, true)]). constructor; [apply symbol_sizes; reflexivity|].
  constructor; [apply put_sizes|constructor].
Qed.
Lemma fallback_sizes x st : sizes (write_fallback c x) opaquep st.
Proof.
  unfold write_fallback, opaquep. destruct (x_opaque c) as [f|] eqn:X; [apply opaque_sizes; eauto|apply fail_sizes].
Qed.
Lemma big_sizes b st : BigintProps.normal_form b -> (2 ^ 31 <= Z.abs (BigintProps.value b))%Z ->
  (forall t, B.bigint_to_digit_stream b 256 = Some t -> llen t < 2 ^ 63) -> sizes (write_bigint b) true st.
Proof.
  intros Nf Gt Lg. unfold write_bigint. pose proof (proj1 (BigintProps.normal_norm b) Nf) as Nn.
  rewrite BigintProofs4.fits_in_word_spec by (auto; lia).
  destruct (B.bigint_to_digit_stream b 256) as [t|] eqn:T;
      [|destruct (BigintProps.C47_writing_exact b 256 Nf) as (t & T' & _); [lia|congruence]].
  assert (Lt : (Z.abs (BigintProofs.bval b) <? 2 ^ (32 - 1))%Z = false).
  { apply Z.ltb_ge. rewrite <- BigintProps.value_bval. exact Gt. }
  rewrite Lt. specialize (Lg t eq_refl). eapply flat_sizes; [reflexivity|]. rewrite varint_rv by exact Lg. cbn [length].
  rewrite app_length, flat_put, map_length, rev_length. unfold llen, bytes, byte in *. lia.
Qed.
Lemma forallb_perm {T} (f : T -> bool) l l' : Permutation l l' -> forallb f l = forallb f l'.
Proof.
  induction 1; cbn [forallb]; auto; try congruence. destruct (f x), (f y); reflexivity.
Qed.
Lemma forallb_pairs {T} (f g : T -> bool) l : forallb fst (map (fun x => (f x, g x)) l) = forallb f l
  /\ forallb snd (map (fun x => (f x, g x)) l) = forallb g l.
Proof. induction l as [|a l [IH1 IH2]]; cbn [map forallb fst snd]; [auto|]. now rewrite IH1, IH2. Qed.

Local Notation wr_ := (fun x => (xwritable x, strict x)).
Lemma map_sizes l : Forall (fun x => sizes (write_xtype e c x) (xwritable x) (strict x)) l ->
  Forall2 (fun w p => sizes w (fst p) (snd p)) (map (write_xtype e c) l) (map wr_ l).
Proof. induction 1; constructor; auto. Qed.
Lemma list_sizes l : Forall (fun x => sizes (write_xtype e c x) (xwritable x) (strict x)) l ->
  forall len, sizes_all (wall (map (write_xtype e c) l) len) len (forallb xwritable l) (forallb strict l).
Proof.
  intros F len. pose proof (wall_sizes _ _ (map_sizes l F) len) as W.
  destruct (forallb_pairs xwritable strict l) as [E1 E2]. now rewrite E1, E2 in W.
Qed.
Lemma choice_sizes l : llen l < 2 ^ 63 -> Forall (fun x => sizes (write_xtype e c x) (xwritable x) (strict x)) l ->
  sizes (write_choice c l (map (write_xtype e c) l)) (forallb xwritable l) (forallb strict l).
Proof.
  intros H F. unfold write_choice. apply counted_sizes; [exact H|].
  set (l' := map (fun i => nth i l D_VOID) (x_order c l)).
  pose proof (O l) as P.
  assert (P' : Permutation l' l) by (etransitivity; [apply Permutation_map, P|]; now rewrite map_nth_seq).
  assert (Q : map (fun i => nth i (map (write_xtype e c) l) wfail) (x_order c l) = map (write_xtype e c) l').
  { unfold l'. rewrite map_map. apply map_ext_in. intros i Hi. eapply Permutation_in in Hi; [|exact P].
    apply in_seq in Hi. rewrite (nth_indep _ wfail (write_xtype e c D_VOID)) by (rewrite map_length; lia).
    apply map_nth. }
  rewrite Q. rewrite <- (forallb_perm xwritable _ _ P'), <- (forallb_perm strict _ _ P').
  apply list_sizes. eapply Permutation_Forall; [apply Permutation_sym, P'|]. exact F.
Qed.
(** Loops that are like [wall] if all parts can be written. *)
Lemma loose_sizes (w : list writer -> Z -> writer) l :
  Forall (fun x => sizes (write_xtype e c x) (xwritable x) (strict x)) l ->
  (forallb xwritable l = true -> forall len r, tab_ok r ->
     w (map (write_xtype e c) l) len r = wall (map (write_xtype e c) l) len r) ->
  (forall len r, tab_ok r -> match w (map (write_xtype e c) l) len r with (_, r') => tab_ok r' /\ tab_grown r r' end) ->
  forall len, sizes_all (w (map (write_xtype e c) l) len) len (forallb xwritable l) (forallb xwritable l).
Proof.
  intros F Eq Tab len r Tr. destruct (forallb xwritable l) eqn:A.
  - rewrite Eq by auto. pose proof (list_sizes l F len r Tr) as W. rewrite A in W.
    destruct (wall (map (write_xtype e c) l) len r) as [[b n] r']. destruct W as (W1 & W2 & W3 & _).
    split; [exact W1|]. split; [exact W2|]. split; [exact W3|]. discriminate.
  - specialize (Tab len r Tr). destruct (w (map (write_xtype e c) l) len r) as [[b n] r'].
    split; [apply Tab|]. split; [apply Tab|]. split; discriminate.
Qed.
Lemma wsome_tab ws ps : Forall2 (fun w p => sizes w (fst p) (snd p)) ws ps -> forall len r, tab_ok r ->
  match wsome ws len r with (_, r') => tab_ok r' /\ tab_grown r r' end.
Proof.
  induction 1 as [|w p ws ps Hw _ IH]; intros len r Tr; cbn [wsome]; [split; [exact Tr|apply tab_grown_refl]|].
  specialize (Hw r Tr). destruct (w r) as [[b n] r1]. destruct Hw as (T1 & G1 & _).
  specialize (IH (if (0 <? n)%Z then (len + n)%Z else len) r1 T1). destruct (wsome ws _ r1) as [[bs m] r2].
  destruct IH as [T2 G2]. split; [exact T2|eapply tab_grown_trans; eauto].
Qed.
Lemma wpairs_tab k : forall ws ps, (length ws <= k)%nat -> Forall2 (fun w p => sizes w (fst p) (snd p)) ws ps ->
  forall len r, tab_ok r -> match wpairs ws len r with (_, r') => tab_ok r' /\ tab_grown r r' end.
Proof.
  induction k as [|k IH]; intros ws ps L F len r Tr.
  - destruct ws; [|cbn in L; lia]. split; [exact Tr|apply tab_grown_refl].
  - destruct ws as [|w1 [|w2 ws]]; try (split; [exact Tr|apply tab_grown_refl]).
    inversion F as [|? p1 ? ps1 Hw1 F1]; subst. inversion F1 as [|? p2 ? ps2 Hw2 F2]; subst. cbn [wpairs].
    specialize (Hw1 r Tr). destruct (w1 r) as [[b1 n1] r1]. destruct Hw1 as (T1 & G1 & _).
    destruct (n1 <? 0)%Z; [split; [exact T1|exact G1]|].
    specialize (Hw2 r1 T1). destruct (w2 r1) as [[b2 n2] r2]. destruct Hw2 as (T2 & G2 & _).
    specialize (IH ws ps2 ltac:(cbn in L; lia) F2 (len + n1 + n2)%Z r2 T2).
    destruct (wpairs ws (len + n1 + n2) r2) as [[bs m] r3]. destruct IH as [T3 G3].
    split; [exact T3|]. eapply tab_grown_trans; [exact G1|]. eapply tab_grown_trans; eauto.
Qed.

Theorem write_sizes x : xsized x -> sizes (write_xtype e c x) (xwritable x) (strict x).
Proof.
  assert (Ls : forall l, Forall (fun x => xsized x -> sizes (write_xtype e c x) (xwritable x) (strict x)) l ->
    fold_right and True (map xsized l) -> Forall (fun x => sizes (write_xtype e c x) (xwritable x) (strict x)) l).
  { induction 1; cbn [map fold_right]; intros Sl; constructor; tauto. }
  induction x using dv_ind2; cbn [xsized]; intros Sx; cbn [write_xtype xwritable strict].
  - unfold write_const. cbn [existsb]. 
    destruct (N.eqb_spec n 1) as [->|]; [apply put_sizes|].
    destruct (N.eqb_spec n 2) as [->|]; [apply put_sizes|].
    destruct (N.eqb_spec n 3) as [->|]; [apply put_sizes|].
    destruct (N.eqb_spec n 4) as [->|]; [apply put_sizes|].
    destruct (N.eqb_spec n 5) as [->|]; [apply put_sizes|].
    destruct (N.eqb_spec n 0) as [->|]; [apply put_sizes|].
    destruct (N.eqb_spec n 23) as [->|]; [apply put_sizes|]. cbn [orb].
    destruct (code_of_const e n); [apply put_sizes|]. cbn [orb]. apply fallback_sizes.
  - now apply code_sizes.
  - now apply symbol_sizes.
  - now apply fixnum_sizes.
  - apply oid_sizes.
  - destruct Sx as (S1 & S2 & S3). now apply big_sizes.
  - apply put_sizes.
  - destruct Sx. apply (after_sizes _ _ 3); [reflexivity|].
    pose proof (wall_sizes [write_xtype e c x1; write_xtype e c x2] [wr_ x1; wr_ x2]
      ltac:(constructor; [apply IHx1; auto|constructor; [apply IHx2; auto|constructor]])) as W.
    cbn [forallb fst snd] in W. rewrite !andb_true_r in W. apply W.
  - destruct Sx. apply (after_sizes _ _ 3); [reflexivity|].
    pose proof (wall_sizes [write_xtype e c x1; write_xtype e c x2] [wr_ x1; wr_ x2]
      ltac:(constructor; [apply IHx1; auto|constructor; [apply IHx2; auto|constructor]])) as W.
    cbn [forallb fst snd] in W. rewrite !andb_true_r in W. apply W.
  - now apply block_sizes.
  - destruct k; now apply block_sizes.
  - destruct Sx. apply (after_sizes _ _ 1); [reflexivity|].
    pose proof (wall_sizes [write_xtype e c x1; write_xtype e c x2] [wr_ x1; wr_ x2]
      ltac:(constructor; [apply IHx1; auto|constructor; [apply IHx2; auto|constructor]])) as W.
    cbn [forallb fst snd] in W. rewrite !andb_true_r in W. apply W.
  - destruct Sx as [S1 S2]. apply counted_sizes; [exact S1|]. apply (loose_sizes wsome); [now apply Ls| |].
    + intros A len r Tr. apply (wsome_sized _ (map wr_ l)); [apply map_sizes; now apply Ls| |exact Tr].
      destruct (forallb_pairs xwritable strict l) as [-> _]. exact A.
    + intros len r Tr. apply (wsome_tab _ (map wr_ l)); [apply map_sizes; now apply Ls|exact Tr].
  - destruct Sx as [S1 S2]. apply choice_sizes; [exact S1|now apply Ls].
  - destruct Sx as [S1 S2]. destruct l as [|a l].
    + apply (after2_sizes [0x99; 0xB4] (wput [0x83])); [reflexivity|apply put_sizes].
    + apply (after2_sizes [0x99; 0xB4] (write_choice c (a :: l) (map (write_xtype e c) (a :: l)))); [reflexivity|].
      apply choice_sizes; [exact S1|now apply Ls].
  - destruct Sx as (S1 & S2 & S3). destruct (verbatim x l); [apply put_sizes|].
    unfold write_compound, plain_head. cbn [ch_annotated ch_seqoff].
    assert (L4 : llen (map (write_xtype e c) l) + 4 - 0 = llen l + 4) by (unfold llen; rewrite map_length; lia).
    rewrite L4. change (0 <=? -1)%Z with false. cbn iota. cbn [app]. apply counted_sizes; [exact S1|].
    pose proof (wall_sizes (write_xtype e c x :: wput [0x82] :: wput [0x82] :: wput [0x82] :: map (write_xtype e c) l)
      (wr_ x :: (true, true) :: (true, true) :: (true, true) :: map wr_ l)) as W.
    cbn [forallb fst snd] in W. destruct (forallb_pairs xwritable strict l) as [E1 E2].
    cbn beta in E1, E2. rewrite E1, E2 in W. apply W.
    constructor; [auto|]. do 3 (constructor; [apply put_sizes|]). apply map_sizes. now apply Ls.
  - destruct Sx as [S1 S2]. apply counted_sizes; [exact S1|]. apply list_sizes. now apply Ls.
  - destruct Sx as (S1 & S2 & S3). apply counted_sizes; [exact S1|]. apply Nat.even_spec in S2. destruct S2 as [k Hk].
    apply (loose_sizes wpairs); [now apply Ls| |].
    + intros A len r Tr. apply (wpairs_sized k _ (map wr_ l)); [rewrite map_length; exact Hk|apply map_sizes; now apply Ls| |exact Tr].
      destruct (forallb_pairs xwritable strict l) as [-> _]. exact A.
    + intros len r Tr. apply (wpairs_tab (length (map (write_xtype e c) l)) _ (map wr_ l)); [lia|apply map_sizes; now apply Ls|exact Tr].
  - destruct Sx as [S1 S2].
    apply (after2_sizes [0x99; 0xB5] (wcounted 0xA2 (llen l) (wall (map (write_xtype e c) l)))); [reflexivity|].
    apply counted_sizes; [exact S1|]. apply list_sizes. now apply Ls.
  - destruct Sx as [S1 S2].
    apply (after2_sizes [0x99; 0xB6] (wcounted 0xA1 (llen l) (wall (map (write_xtype e c) l)))); [reflexivity|].
    apply counted_sizes; [exact S1|]. apply list_sizes. now apply Ls.
  - apply fallback_sizes.
  - apply fallback_sizes.
Qed.
End Size.

(** ** kno_validate_xtype *)

Section Validate.
Variables (e : xenv) (c : xconf).
Hypothesis E : xenv_ok e.
Hypothesis O : xconf_ok c.
Variable K : N -> N -> Prop.

(** Values without compounds and without the constant for sets. *)
Fixpoint vknown (x : dv) : bool :=
  match x with
  | DConst n => negb (n =? x_first e + 5)
  | DPair a b | DRat a b | DCpx a b => vknown a && vknown b
  | DChoice l | DQChoice l | DVec l | DSlotmap l => forallb vknown l
  | DCompound _ _ => false
  | _ => true
  end.
Definition accepts (w : writer) : Prop := forall r, tab_ok r -> kinds e r K -> forall tbl, reads (snd (w r)) tbl ->
  forall f rest, (length (fst (fst (w r))) <= f)%nat -> validate_loop e f tbl (fst (fst (w r)) ++ rest) = VRes 1 rest.
Definition accepts_all (w : writer) (k : nat) : Prop := forall r, tab_ok r -> kinds e r K -> forall tbl, reads (snd (w r)) tbl ->
  forall f rest, (length (fst (fst (w r))) <= f)%nat ->
  validate_n (validate_loop e f tbl) k (fst (fst (w r)) ++ rest) = VRes 1 rest.
(** Without a table. *)
Definition rejects (w : writer) : Prop := forall tbl p q, fst (fst (w None)) = p ++ q -> q <> [] ->
  forall f, (length p < f)%nat -> exists rest, validate_loop e f tbl p = VRes (-1) rest.
Definition rejects_all (w : writer) (k : nat) : Prop := forall tbl p q, fst (fst (w None)) = p ++ q -> q <> [] ->
  forall f, (length p < f)%nat -> exists rest, validate_n (validate_loop e f tbl) k p = VRes (-1) rest.
Definition vgood (w : writer) (x : dv) : Prop := (sends e K w x /\ abortp x = false) /\ accepts w /\ rejects w.
Lemma vgood_sends ws l : Forall2 vgood ws l -> Forall2 (fun w x => sends e K w x /\ abortp x = false) ws l.
Proof. induction 1 as [|w x ws l (A & _)]; constructor; auto. Qed.

Lemma wall_accepts ws l : Forall2 vgood ws l -> forall len, accepts_all (wall ws len) (length l).
Proof.
  induction 1 as [|w x ws l ((Hw & _) & Ha & _) F IH]; intros len r Tr Kr tbl Ht f rest L; [reflexivity|].
  cbn [wall] in *. specialize (Hw r Tr Kr). specialize (Ha r Tr Kr tbl).
  destruct (w r) as [[b n] r1]. destruct Hw as (T1 & G1 & _ & P1 & _).
  destruct (Z.ltb_spec n 0); [lia|].
  specialize (IH (len + n)%Z r1 T1 (kinds_grown e r r1 K G1 Kr) tbl).
  pose proof (wall_sends e K ws l (vgood_sends ws l F) (len + n)%Z r1 T1 (kinds_grown e r r1 K G1 Kr)) as S2.
  destruct (wall ws (len + n) r1) as [[bs m] r2] eqn:W. cbn [fst snd] in *. destruct S2 as (_ & G2 & _).
  rewrite app_length in L. rewrite <- app_assoc. cbn [length validate_n].
  rewrite Ha by (first [eapply reads_before; eauto|lia]). change (1 <? 0)%Z with false. cbn iota. apply IH; [exact Ht|lia].
Qed.
Lemma wsome_accepts ws l : Forall2 vgood ws l -> forall len, accepts_all (wsome ws len) (length l).
Proof.
  intros F len r Tr Kr. pose proof (wall_accepts ws l F len r Tr Kr) as W.
  rewrite <- (wsome_wall e K ws l (vgood_sends ws l F) len r Tr Kr) in W. exact W.
Qed.
Lemma wall_rejects ws l : Forall2 vgood ws l -> forall len, rejects_all (wall ws len) (length l).
Proof.
  induction 1 as [|w x ws l ((Hw & _) & Ha & Hr) F IH]; intros len tbl p q H Q f L.
  - cbn in H. destruct p; [|discriminate]. elim Q. symmetry. exact H.
  - cbn [wall] in H. specialize (Hw None I I). specialize (Ha None I I tbl). specialize (Hr tbl).
    destruct (w None) as [[b n] r1]. destruct Hw as (T1 & G1 & _ & P1 & _).
    destruct r1; [destruct G1|].
    destruct (Z.ltb_spec n 0); [lia|]. specialize (IH (len + n)%Z tbl).
    destruct (wall ws (len + n) None) as [[bs m] r2] eqn:W. cbn [fst snd] in *.
    cbn [length validate_n]. destruct (cut _ _ _ _ H) as [Lp|(p' & -> & H')].
    + apply app_eq_app in H. destruct H as (m' & [[H1 H2]|[H1 H2]]); [|exfalso; subst p; rewrite app_length in Lp; lia].
      assert (M : m' <> []) by (intros ->; rewrite app_nil_r in H1; subst p; lia).
      destruct (Hr p m' H1 M f L) as [rest ->]. change (-1 <? 0)%Z with true. eauto.
    + rewrite app_length in L. rewrite Ha by (first [exact I|lia]). change (1 <? 0)%Z with false. cbn iota. apply (IH p' q H' Q). lia.
Qed.
Lemma wsome_rejects ws l : Forall2 vgood ws l -> forall len, rejects_all (wsome ws len) (length l).
Proof.
  intros F len. pose proof (wall_rejects ws l F len) as W. unfold rejects_all in *.
  rewrite (wsome_wall e K ws l (vgood_sends ws l F) len None I I). exact W.
Qed.
Ltac start H := destruct (cut_cons _ _ _ _ H) as [->|(p1 & -> & X1)]; [eexists; reflexivity|].
Ltac fuel L := match type of L with (_ <= ?f)%nat => destruct f as [|f]; [cbn in L; lia|] end.
Lemma flat_vgood b n w x : (forall r, w r = ((b, n), r)) -> b <> [] -> sends e K w x -> abortp x = false ->
  (forall tbl f rest, (length b <= S f)%nat -> validate_loop e (S f) tbl (b ++ rest) = VRes 1 rest) ->
  (forall tbl f p q, b = p ++ q -> q <> [] -> exists rest, validate_loop e (S f) tbl p = VRes (-1) rest) ->
  vgood w x.
Proof.
  intros Hw Ne S A Va Vr. split; [auto|]. split.
  - intros r Tr Kr tbl Ht f rest L. rewrite Hw in *. cbn [fst snd] in *. destruct b; [congruence|].
    destruct f as [|f]; [cbn in L; lia|]. now apply Va.
  - intros tbl p q H Q f L. rewrite Hw in H. cbn [fst] in H. destruct f as [|f]; [lia|]. now apply (Vr tbl f p q).
Qed.
Lemma one_vgood a x : sends e K (wput [a]) x -> abortp x = false ->
  In a [0x81; 0x82; 0x83; 0x84; 0x85; 0x86; 0xB0; 0xB1; 0xB2; 0xB3; 0xB4; 0xB5; 0xB8; 0xB9; 0xBA] -> vgood (wput [a]) x.
Proof.
  intros S A Ia. eapply flat_vgood; [reflexivity|discriminate|exact S|exact A| |].
  - intros tbl f rest L. cbn [In] in Ia. repeat (destruct Ia as [<-|Ia]; [reflexivity|]). destruct Ia.
  - intros tbl f p q H Q. start H. destruct p1; [|discriminate]. elim Q. symmetry. exact X1.
Qed.
Lemma code_vgood code n x : n < 2 ^ 63 -> code = 0x8C \/ code = 0x8D \/ code = 0x8E ->
  sends e K (fun r => (wcode code n, r)) x -> abortp x = false -> vgood (fun r => (wcode code n, r)) x.
Proof.
  intros Hn Hc S A. eapply flat_vgood; [reflexivity|discriminate|exact S|exact A| |].
  - intros tbl f rest L. cbn [wvarint fst app].
    assert (G : (let (ival, r) := xt_varint (put_varint n ++ rest) in VRes (if (ival <? 0)%Z then -1 else 1) r) = VRes 1 rest).
    { rewrite xt_varint_put by exact Hn. destruct (Z.ltb_spec (Z.of_N n) 0); [lia|reflexivity]. }
    destruct Hc as [->|[->| ->]]; exact G.
  - intros tbl f p q H Q. start H. cbn [wvarint fst] in X1.
    assert (G : exists rest, (let (ival, r) := xt_varint p1 in VRes (if (ival <? 0)%Z then -1 else 1) r) = VRes (-1) rest).
    { rewrite (xt_varint_cut n p1 q); eauto. }
    destruct Hc as [->|[->| ->]]; exact G.
Qed.
Lemma vskip_app s rest : vskip (Z.of_N (llen s)) (s ++ rest) = VRes 1 rest.
Proof.
  unfold vskip. assert (Z.to_nat (Z.of_N (llen s)) = length s) as -> by (unfold llen; lia).
  now rewrite req_app, skipn_app_len.
Qed.
Lemma vskip_cut s p q : s = p ++ q -> q <> [] -> vskip (Z.of_N (llen s)) p = VRes (-1) p.
Proof.
  intros H Q. unfold vskip. rewrite req_short; [reflexivity|]. pose proof (cut_strict s p q H Q). unfold llen. lia.
Qed.
Lemma block_body s rest : llen s < 2 ^ 63 -> (let (len, r) := xt_varint (put_varint (llen s) ++ s ++ rest) in
        if (len <? 0)%Z then VRes (-1) r else vskip len r) = VRes 1 rest.
Proof. intros H. rewrite xt_varint_put by exact H. destruct (Z.ltb_spec (Z.of_N (llen s)) 0); [lia|apply vskip_app]. Qed.
Lemma block_cut s p q : llen s < 2 ^ 63 -> put_varint (llen s) ++ s = p ++ q -> q <> [] ->
  exists rest, (let (len, r) := xt_varint p in if (len <? 0)%Z then VRes (-1) r else vskip len r) = VRes (-1) rest.
Proof.
  intros Hn H Q. destruct (cut _ _ _ _ H) as [L|(p' & -> & H')].
  - apply app_eq_app in H. destruct H as (m & [[H1 H2]|[H1 H2]]).
    + rewrite (xt_varint_cut (llen s) p m); auto; [eexists; reflexivity|]. intros ->. rewrite app_nil_r in H1. rewrite H1 in L. lia.
    + exfalso. subst p. rewrite app_length in L. lia.
  - rewrite xt_varint_put by exact Hn. destruct (Z.ltb_spec (Z.of_N (llen s)) 0); [lia|].
    rewrite (vskip_cut s p' q); eauto.
Qed.
Lemma block_vgood code s n w x : (forall r, w r = ((code :: put_varint (llen s) ++ s, n), r)) ->
  llen s < 2 ^ 63 -> In code [0x90; 0x91; 0x92; 0x93; 0x94; 0x95] -> sends e K w x -> abortp x = false -> vgood w x.
Proof.
  intros Hw Hn Hc S A. eapply flat_vgood; [exact Hw|discriminate|exact S|exact A| |].
  - intros tbl f rest L. cbn [app]. rewrite <- app_assoc. pose proof (block_body s rest Hn) as G.
    cbn [In] in Hc. repeat (destruct Hc as [<-|Hc]; [exact G|]). destruct Hc.
  - intros tbl f p q H Q. start H. pose proof (block_cut s p1 q Hn X1 Q) as G.
    cbn [In] in Hc. repeat (destruct Hc as [<-|Hc]; [exact G|]). destruct Hc.
Qed.
Lemma eight_vgood code b x : code = 0x88 \/ code = 0x89 -> length b = 8%nat -> sends e K (wput (code :: b)) x -> abortp x = false ->
  vgood (wput (code :: b)) x.
Proof.
  intros Hc L8 S A. assert (E8 : Z.of_N (llen b) = 8%Z) by (unfold llen; rewrite L8; reflexivity).
  eapply flat_vgood; [reflexivity|discriminate|exact S|exact A| |].
  - intros tbl f rest L. pose proof (vskip_app b rest) as G. unfold bytes, byte in *. rewrite E8 in G. destruct Hc as [-> | ->]; exact G.
  - intros tbl f p q H Q. start H. pose proof (vskip_cut b p1 q X1 Q) as G. unfold bytes, byte in *. rewrite E8 in G.
    exists p1. destruct Hc as [-> | ->]; exact G.
Qed.
Lemma symbol_vgood s : short s -> ~ In 0 s -> vgood (write_symbol c s) (DSym s).
Proof.
  intros Sh Nn. destruct (short_63 s Sh) as [Hn _].
  assert (Plain : vgood (fun r => ((0x93 :: put_varint (llen s) ++ s,
                (1 + Z.of_N (write_varint_rv (llen s)) + Z.of_N (llen s))%Z), r)) (DSym s)).
  { eapply (block_vgood 0x93 s); [reflexivity|exact Hn|cbn; auto| |reflexivity].
    intros r Tr Kr. pose proof (sends_symbol e {| x_norefs := true; x_opaque := None; x_order := x_order c |} K s Sh Nn r Tr Kr) as H.
    unfold write_symbol in H. destruct r; exact H. }
  destruct Plain as (_ & Pa & Pr). split; [split; [now apply sends_symbol|reflexivity]|]. split.
  - intros r Tr Kr tbl Ht f rest L. unfold write_symbol in *. destruct r as [t|]; [|now apply (Pa None I I tbl I f rest)].
    destruct (x_norefs c); [now apply (Pa (Some t) Tr Kr tbl Ht f rest)|].
    pose proof (xtype_ref_ok (DSym s) t Tr eq_refl) as P.
    destruct (xtype_ref (DSym s) t) as [[i|] t'] eqn:X; destruct P as (P1 & P2 & P3);
      [|now apply (Pa (Some t') P1 Kr tbl Ht f rest)].
    cbn [fst snd wcode wvarint] in *. destruct (reads_index K t' tbl i _ Ht P3) as (R & -> & Hi & Hn').
    destruct f as [|f]; [cbn in L; lia|].
    match goal with |- _ = ?rhs => change ((let (off, r) := xt_varint (put_varint i ++ rest) in
      VRes (if (off <? Z.of_nat (length R))%Z then 1 else -1) r) = rhs) end.
    rewrite xt_varint_put by exact Hi.
    assert (N.to_nat i < length R)%nat by (apply nth_error_Some; congruence).
    destruct (Z.ltb_spec (Z.of_N i) (Z.of_nat (length R))); [reflexivity|lia].
  - exact Pr.
Qed.
Lemma oid_vgood hi lo : hi < 2 ^ 32 -> lo < 2 ^ 32 -> K hi lo -> vgood (write_oid e c hi lo) (DOid hi lo).
Proof.
  intros Hh Hl HK.
  assert (Plain : vgood (wput (0x89 :: put_4bytes hi ++ put_4bytes lo)) (DOid hi lo)).
  { apply eight_vgood; [auto|reflexivity| |reflexivity].
    intros r Tr Kr. pose proof (sends_oid e {| x_norefs := true; x_opaque := None; x_order := x_order c |} E K hi lo Hh Hl HK r Tr Kr) as H.
    unfold write_oid in H. destruct r; exact H. }
  destruct Plain as (_ & Pa & Pr). split; [split; [now apply sends_oid|reflexivity]|]. split.
  - intros r Tr Kr tbl Ht f rest L. unfold write_oid in *. destruct r as [t|]; [|now apply (Pa None I I tbl I f rest)].
    destruct (x_norefs c); [now apply (Pa (Some t) Tr Kr tbl Ht f rest)|].
    destruct (do id <- oid_base_id e hi lo; base_key e id) as [base|] eqn:Hb; [|now apply (Pa (Some t) Tr Kr tbl Ht f rest)].
    assert (Kb : keyp base = true).
    { destruct (oid_base_id e hi lo) as [id|]; [|discriminate]. unfold base_key in Hb. now apply oid_at_key in Hb. }
    pose proof (xtype_ref_ok base t Tr Kb) as P.
    destruct (xtype_ref base t) as [[i|] t'] eqn:X; destruct P as (P1 & P2 & P3);
      [|now apply (Pa (Some t') P1 Kr tbl Ht f rest)].
    cbn [fst snd] in *. destruct (reads_index K t' tbl i _ Ht P3) as (R & -> & Hi & Hn').
    assert (Ho : oid_offset lo < 2 ^ 63).
    { rewrite off_mod. pose proof (N.mod_lt lo (2 ^ 20) ltac:(discriminate)).
      change (2 ^ 20) with 1048576 in *. change (2 ^ 63) with 9223372036854775808. lia. }
    destruct f as [|f]; [cbn in L; lia|]. cbn [app]. rewrite <- app_assoc.
    match goal with |- _ = ?rhs => change ((let (oid_off, r) := xt_varint (put_varint (oid_offset lo) ++ put_varint i ++ rest) in
        if (oid_off <? 0)%Z then VRes (-1) r
        else
          let (base_off, r') := xt_varint r in
          if (base_off <? 0)%Z then VRes (-1) r'
          else VRes (if (base_off <? Z.of_nat (length R))%Z then 1 else -1) r') = rhs) end.
    rewrite xt_varint_put by exact Ho. destruct (Z.ltb_spec (Z.of_N (oid_offset lo)) 0); [lia|].
    rewrite xt_varint_put by exact Hi. destruct (Z.ltb_spec (Z.of_N i) 0); [lia|].
    assert (N.to_nat i < length R)%nat by (apply nth_error_Some; congruence).
    destruct (Z.ltb_spec (Z.of_N i) (Z.of_nat (length R))); [reflexivity|lia].
  - exact Pr.
Qed.
Lemma big_vgood b : xstorable e K (DBig b) -> vgood (write_bigint b) (DBig b).
Proof.
  intros St. pose proof (sends_bigint e K b St) as Sb. inversion St as [| | | | |b' Nf Gt Lg| | | | | | | | | | |]; subst.
  unfold write_bigint in *.
  pose proof (proj1 (BigintProps.normal_norm b) Nf) as Nn.
  rewrite BigintProofs4.fits_in_word_spec in * by (auto; lia).
  destruct (B.bigint_to_digit_stream b 256) as [t|] eqn:T;
      [|destruct (BigintProps.C47_writing_exact b 256 Nf) as (t & T' & _); [lia|congruence]].
  assert (Lt : (Z.abs (BigintProofs.bval b) <? 2 ^ (32 - 1))%Z = false).
  { apply Z.ltb_ge. rewrite <- BigintProps.value_bval. unfold A.max_fixnum in *. change (2 ^ (32 - 1))%Z with 2147483648%Z. lia. }
  rewrite Lt in *.
  assert (Lc : (Z.of_nat (length t) + 1 < 2 ^ 31)%Z) by (apply (digits_count b t); auto).
  set (ds := flat_map put_byte (map Z.to_N (rev t))) in *.
  assert (Lp : llen t = llen ds).
  { unfold llen, ds. rewrite flat_put, map_length, rev_length. reflexivity. }
  assert (Hl : llen t < 2 ^ 63).
  { unfold llen. change (2 ^ 31)%Z with 2147483648%Z in Lc. change (2 ^ 63) with 9223372036854775808. lia. }
  rewrite Lp in *. eapply (block_vgood _ ds); [reflexivity|exact Hl|destruct (B.bneg b); cbn; auto 10|exact Sb|reflexivity].
Qed.

(** A header and elements. *)
Definition vboth (w : writer) : Prop := accepts w /\ rejects w.
Lemma after_both h w k : h <> [] -> accepts_all w k -> rejects_all w k ->
  (forall tbl f b, validate_loop e (S f) tbl (h ++ b) = validate_n (validate_loop e f tbl) k b) ->
  (forall tbl f p q, h = p ++ q -> q <> [] -> exists rest, validate_loop e (S f) tbl p = VRes (-1) rest) ->
  vboth (wafter h w).
Proof.
  intros Ne Ha Hr Va Vr. split.
  - intros r Tr Kr tbl Ht f rest L. unfold wafter in *. specialize (Ha r Tr Kr tbl). destruct (w r) as [[b n] r1].
    cbn [fst snd] in *. rewrite app_length in L. destruct h as [|a h]; [congruence|]. cbn [length] in L.
    destruct f as [|f]; [lia|]. rewrite <- app_assoc. rewrite Va. apply Ha; [exact Ht|lia].
  - intros tbl p q H Q f L. unfold wafter in *. specialize (Hr tbl). destruct (w None) as [[b n] r1]. cbn [fst snd] in *.
    destruct f as [|f]; [lia|]. destruct (cut _ _ _ _ H) as [Lp|(p' & -> & H')].
    + apply app_eq_app in H. destruct H as (m' & [[H1 H2]|[H1 H2]]); [|exfalso; subst p; rewrite app_length in Lp; lia].
      apply (Vr tbl f p m' H1). intros ->. rewrite app_nil_r in H1. subst p. lia.
    + rewrite app_length in L. destruct h as [|a h]; [congruence|]. cbn [length] in L.
      destruct (Hr p' q H' Q f ltac:(lia)) as [rest R]. exists rest. now rewrite Va.
Qed.
Lemma counted_both code (n : N) w k : code = 0xA0 \/ code = 0xA1 \/ code = 0xA2 -> (Z.of_N n < 2 ^ 31)%Z -> N.to_nat n = k ->
  (forall len, accepts_all (w len) k) -> (forall len, rejects_all (w len) k) -> vboth (wcounted code n w).
Proof.
  intros Hc Hn Hk Ha Hr.
  assert (Hn' : n < 2 ^ 63) by (change (2 ^ 31)%Z with 2147483648%Z in Hn; change (2 ^ 63) with 9223372036854775808; lia).
  assert (Red : forall tbl f b, validate_loop e (S f) tbl (code :: b) = (let (n, r) := xt_varint b in
        if (n <? 0)%Z then VRes (-1) r
        else if (2 ^ 31 <=? n)%Z then VUnk
        else validate_n (validate_loop e f tbl) (Z.to_nat n) r)).
  { intros. destruct Hc as [->|[->| ->]]; reflexivity. }
  unfold wcounted in *. apply (after_both _ _ k); auto; [discriminate| |].
  - intros tbl f b. cbn [app]. rewrite Red, xt_varint_put by exact Hn'.
    destruct (Z.ltb_spec (Z.of_N n) 0); [lia|]. destruct (Z.leb_spec (2 ^ 31) (Z.of_N n)) as [Bad|]; [lia|].
    assert (Z.to_nat (Z.of_N n) = k) as -> by lia. reflexivity.
  - intros tbl f p q H Q. start H. rewrite Red, (xt_varint_cut n p1 q) by auto. eexists. reflexivity.
Qed.
Lemma pair_both a b len : vgood (write_xtype e c a) a -> vgood (write_xtype e c b) b ->
  vboth (wafter [0x98] (wall [write_xtype e c a; write_xtype e c b] len)).
Proof.
  intros Ga Gb. assert (F : Forall2 vgood [write_xtype e c a; write_xtype e c b] [a; b]) by auto.
  apply (after_both _ _ 2); [discriminate| | | |].
  - apply (wall_accepts _ _ F).
  - apply (wall_rejects _ _ F).
  - reflexivity.
  - intros tbl f p q H Q. start H. destruct p1; [|discriminate]. elim Q. symmetry. exact X1.
Qed.
Lemma tagged_both code w w0 : In code [0xB0; 0xB1; 0xB4] ->
  (forall r, fst (fst (w r)) = 0x99 :: code :: fst (fst (w0 r)) /\ snd (w r) = snd (w0 r)) -> vboth w0 -> vboth w.
Proof.
  intros Hc Eq (Ha & Hr).
  assert (Red : forall tbl f b, validate_loop e (S f) tbl (0x99 :: b) = validate_n (validate_loop e f tbl) 2 b) by reflexivity.
  assert (Rc : forall tbl f b, validate_loop e (S f) tbl (code :: b) = VRes 1 b).
  { intros. cbn [In] in Hc. repeat (destruct Hc as [<-|Hc]; [reflexivity|]). destruct Hc. }
  split.
  - intros r Tr Kr tbl Ht f rest L. specialize (Ha r Tr Kr tbl). destruct (Eq r) as [E1 E2].
    destruct (w r) as [[b n] r1], (w0 r) as [[b0 n0] r0]. cbn [fst snd] in *. subst b r0. cbn [app length] in L.
    destruct f as [|f]; [lia|]. destruct f as [|f]; [lia|]. cbn [app]. rewrite Red. cbn [validate_n]. rewrite Rc.
    change (1 <? 0)%Z with false. cbn iota. rewrite Ha by (first [exact Ht|lia]). reflexivity.
  - intros tbl p q H Q f L. specialize (Hr tbl). destruct (Eq None) as [E1 E2].
    destruct (w None) as [[b n] r1], (w0 None) as [[b0 n0] r0]. cbn [fst snd] in *. rewrite E1 in H.
    destruct f as [|f]; [lia|]. start H. rewrite Red. cbn [validate_n length] in *. destruct f as [|f]; [lia|].
    destruct (cut_cons _ _ _ _ X1) as [->|(p2 & -> & X2)]; [eexists; reflexivity|].
    rewrite Rc. change (1 <? 0)%Z with false. cbn iota. cbn [length] in L.
    destruct (Hr p2 q X2 Q (S f) ltac:(lia)) as [rest ->]. change (-1 <? 0)%Z with true. eauto.
Qed.
Lemma choice_both l : short l -> Forall2 vgood (map (write_xtype e c) l) l ->
  vboth (write_choice c l (map (write_xtype e c) l)).
Proof.
  intros Sh F. destruct (short_63 l Sh) as [H H']. unfold write_choice.
  set (l' := map (fun i => nth i l D_VOID) (x_order c l)).
  pose proof (O l) as P.
  assert (P' : Permutation l' l) by (etransitivity; [apply Permutation_map, P|]; now rewrite map_nth_seq).
  assert (Q : map (fun i => nth i (map (write_xtype e c) l) wfail) (x_order c l) = map (write_xtype e c) l').
  { unfold l'. rewrite map_map. apply map_ext_in. intros i Hi. eapply Permutation_in in Hi; [|exact P].
    apply in_seq in Hi. rewrite (nth_indep _ wfail (write_xtype e c D_VOID)) by (rewrite map_length; lia).
    apply map_nth. }
  assert (F' : Forall2 vgood (map (write_xtype e c) l') l').
  { assert (Fl : Forall (fun x => vgood (write_xtype e c x) x) l).
    { clear -F. remember (map (write_xtype e c) l) as ws. revert Heqws. revert l F.
      induction ws as [|w ws IH]; intros l F Q; inversion F; subst; constructor; cbn [map] in Q; inversion Q; subst; auto. }
    eapply Permutation_Forall in Fl; [|apply Permutation_sym, P']. clear -Fl. induction Fl; cbn [map]; constructor; auto. }
  rewrite Q. apply (counted_both _ _ _ (length l')); [auto|exact H'| | |].
  - rewrite (Permutation_length P'). unfold llen. lia.
  - now apply wall_accepts.
  - now apply wall_rejects.
Qed.
Theorem validates x : xstorable e K x -> vknown x = true -> vgood (write_xtype e c x) x.
Proof.
  assert (Ls : forall l, Forall (fun x => xstorable e K x -> vknown x = true -> vgood (write_xtype e c x) x) l ->
    Forall (xstorable e K) l -> forallb vknown l = true -> Forall2 vgood (map (write_xtype e c) l) l).
  { induction 1; intros Sl Vl; cbn [map]; constructor; inversion Sl; subst; cbn [forallb] in Vl; apply andb_prop in Vl; tauto. }
  induction x using dv_ind2; intros St Vt; pose proof (xround_trip e c E O K _ St) as S;
    pose proof (xstorable_stop e K _ E St) as A; pose proof St as St'; inversion St'; subst;
    cbn [vknown] in Vt; try discriminate.
  - cbn [write_xtype] in *. unfold write_const in *. pose proof (proj1 (proj2 (proj2 E))) as F24.
    destruct (N.eqb_spec n 1); [apply one_vgood; [exact S|exact A|cbn; auto 20]|]. destruct (N.eqb_spec n 2); [apply one_vgood; [exact S|exact A|cbn; auto 20]|].
    destruct (N.eqb_spec n 3); [apply one_vgood; [exact S|exact A|cbn; auto 20]|]. destruct (N.eqb_spec n 4); [apply one_vgood; [exact S|exact A|cbn; auto 20]|].
    destruct (N.eqb_spec n 5); [apply one_vgood; [exact S|exact A|cbn; auto 20]|]. destruct (N.eqb_spec n 0); [lia|]. cbn [orb] in *.
    destruct (N.eqb_spec n 23); [apply one_vgood; [exact S|exact A|cbn; auto 20]|].
    assert (T : x_first e <= n < x_first e + 10) by lia.
    assert (Q : exists i, (i < 10)%nat /\ n = x_first e + N.of_nat i) by (exists (N.to_nat (n - x_first e)); lia).
    destruct Q as (i & Hi & ->). rewrite code_of_tag in * by exact Hi.
    assert (i <> 5%nat) by (intros ->; apply negb_true_iff, N.eqb_neq in Vt; apply Vt; reflexivity).
    do 10 (destruct i as [|i]; [first [congruence|apply one_vgood; [exact S|exact A|cbn; auto 20]]|]). lia.
  - cbn [write_xtype] in *. apply code_vgood; auto. match goal with H : _ < 2 ^ 23 |- _ => change (2 ^ 23) with 8388608 in H end.
    change (2 ^ 63) with 9223372036854775808. lia.
  - now apply symbol_vgood.
  - cbn [write_xtype] in *. unfold write_fixnum in *. match goal with H : (_ <= _ <= _)%Z |- _ => unfold A.min_fixnum, A.max_fixnum in H end.
    destruct (z <? 0)%Z; (apply code_vgood; [change (2 ^ 63) with 9223372036854775808; lia|auto|exact S|exact A]).
  - now apply oid_vgood.
  - now apply big_vgood.
  - apply eight_vgood; auto.
  - apply andb_prop in Vt. split; [auto|].
    apply (tagged_both 0xB0 _ (wafter [0x98] (wall [write_xtype e c x1; write_xtype e c x2] 3))); [cbn; auto| |].
    + intros r. cbn [write_xtype]. unfold wafter. now destruct (wall _ 3 r) as [[b n] r1].
    + apply pair_both; [apply IHx1|apply IHx2]; tauto.
  - apply andb_prop in Vt. split; [auto|].
    apply (tagged_both 0xB1 _ (wafter [0x98] (wall [write_xtype e c x1; write_xtype e c x2] 3))); [cbn; auto| |].
    + intros r. cbn [write_xtype]. unfold wafter. now destruct (wall _ 3 r) as [[b n] r1].
    + apply pair_both; [apply IHx1|apply IHx2]; tauto.
  - cbn [write_xtype] in *. destruct (short_63 s) as [Hn _]; [assumption|].
    eapply (block_vgood 0x90 s); [reflexivity|exact Hn|cbn; auto|exact S|exact A].
  - cbn [write_xtype] in *. destruct (short_63 s) as [Hn _]; [assumption|].
    destruct k; (eapply (block_vgood _ s); [reflexivity|exact Hn|cbn; auto|exact S|exact A]).
  - apply andb_prop in Vt. split; [auto|]. apply pair_both; [apply IHx1|apply IHx2]; tauto.
  - destruct (short_63 l) as [Hn Hn']; [assumption|]. split; [auto|].
    apply (counted_both _ _ _ (length l)); [auto|exact Hn'|unfold llen; apply Nat2N.id| |].
    + apply wsome_accepts. now apply Ls.
    + apply wsome_rejects. now apply Ls.
  - split; [auto|]. apply choice_both; auto.
  - split; [auto|].
    apply (tagged_both 0xB4 _ (match l with [] => wput [0x83] | _ => write_choice c l (map (write_xtype e c) l) end)); [cbn; auto| |].
    + intros r. cbn [write_xtype]. unfold wafter. destruct l as [|x l]; [split; reflexivity|].
      generalize (write_choice c (x :: l) (map (write_xtype e c) (x :: l)) r). intros [[b n] r1]. split; reflexivity.
    + destruct l; [|apply choice_both; auto].
      assert (G : vgood (wput [0x83]) (DConst 3)); [|split; apply G].
      apply one_vgood; [|reflexivity|cbn; auto 20]. apply (xround_trip e c E O K (DConst 3)). constructor. lia.
  - destruct (short_63 l) as [Hn Hn']; [assumption|]. split; [auto|].
    apply (counted_both _ _ _ (length l)); [auto|exact Hn'|unfold llen; apply Nat2N.id| |].
    + apply wall_accepts. now apply Ls.
    + apply wall_rejects. now apply Ls.
Qed.
End Validate.

(** ** Atomic values that are cut off *)

Section Atoms.
Variables (e : xenv) (c : xconf).
Hypothesis E : xenv_ok e.
Variable K : N -> N -> Prop.
Definition xatomic (x : dv) : bool :=
  match x with DConst _ | DChar _ | DFix _ | DOid _ _ | DFlo _ | DSym _ => true | _ => false end.
Definition stops (r : xrd) : Prop := exists rest, r = XRd D_EOD rest \/ r = XRd D_ERROR rest.
Lemma stop_eod b : stops (XRd D_EOD b). Proof. exists b. auto. Qed.
Lemma stop_err b : stops (XRd D_ERROR b). Proof. exists b. auto. Qed.
Ltac start H := destruct (cut_cons _ _ _ _ H) as [->|(p1 & -> & X1)]; [apply stop_eod|].
Lemma one_stops tbl f a p q : [a] = p ++ q -> q <> [] -> stops (xread_loop e (S f) tbl p).
Proof. intros H Q. start H. destruct p1; [|discriminate]. elim Q. symmetry. exact X1. Qed.
Lemma code_stops tbl f code n p q : n < 2 ^ 63 -> code = 0x8C \/ code = 0x8D \/ code = 0x8E ->
  code :: put_varint n = p ++ q -> q <> [] -> stops (xread_loop e (S f) tbl p).
Proof.
  intros Hn Hc H Q. start H.
  assert (G : forall k, stops (let (ival, r0) := xt_varint p1 in if (ival <? 0)%Z then XRd D_ERROR r0 else k ival r0)).
  { intros k. rewrite (xt_varint_cut n p1 q); auto. apply stop_err. }
  destruct Hc as [->|[->| ->]]; apply G.
Qed.
Theorem xcut_atomic x tbl p q f : xstorable e K x -> xatomic x = true ->
  fst (fst (write_xtype e c x None)) = p ++ q -> q <> [] -> stops (xread_loop e (S f) tbl p).
Proof.
  intros St A H Q. destruct St as [n Hn|n Hn|s Hs Hz|z Hz|hi lo|b|w|a b|a b|s|k s|a b|l|l|l|t l|l m]; try discriminate A; cbn [write_xtype] in H.
  - revert H. unfold write_const.
    destruct (n =? 1) eqn:N1; [intros H; exact (one_stops tbl f _ p q H Q)|]. destruct (n =? 2) eqn:N2; [intros H; exact (one_stops tbl f _ p q H Q)|].
    destruct (n =? 3) eqn:N3; [intros H; exact (one_stops tbl f _ p q H Q)|]. destruct (n =? 4) eqn:N4; [intros H; exact (one_stops tbl f _ p q H Q)|].
    destruct (n =? 5) eqn:N5; [intros H; exact (one_stops tbl f _ p q H Q)|].
    destruct ((n =? 0) || (n =? 23)) eqn:N0; [intros H; exact (one_stops tbl f _ p q H Q)|].
    destruct (code_of_const e n) as [code|] eqn:Cn; [intros H; exact (one_stops tbl f _ p q H Q)|].
    exfalso. apply orb_false_iff in N0. rewrite !N.eqb_neq in *. unfold code_of_const in Cn. destruct E as (_ & _ & F1 & _).
    destruct (N.ltb_spec n (x_first e)); [lia|]. apply nth_error_None in Cn. cbn in Cn. lia.
  - cbn [wcode wvarint fst] in H. apply (code_stops tbl f 0x8E n p q); auto.
    change (2 ^ 23) with 8388608 in Hn. change (2 ^ 63) with 9223372036854775808. lia.
  - cbn [write_symbol fst] in H. destruct (short_63 s Hs) as [Hn _]. start H.
    match goal with |- stops ?x => change (stops (let (len, b2) := xt_varint p1 in
      if (len <? 0)%Z then XRd D_ERROR b2
      else xread_bytes len b2 (fun s r => if has_nul s then XUnk else XRd (DSym s) r))) end.
    apply (cut_count (llen s) s p1 q (fun len b2 => if (len <? 0)%Z then XRd D_ERROR b2
      else xread_bytes len b2 (fun s r => if has_nul s then XUnk else XRd (DSym s) r)) stops); auto; [apply stop_err|].
    intros p' H' _. destruct (Z.ltb_spec (Z.of_N (llen s)) 0); [lia|]. rewrite (xread_bytes_cut s p' q) by auto. apply stop_err.
  - unfold write_fixnum in H. unfold A.min_fixnum, A.max_fixnum in Hz.
    destruct (z <? 0)%Z; cbn [wcode wvarint fst] in H;
      (eapply (code_stops tbl f _ _ p q); [| |exact H|exact Q]; [|auto]; change (2 ^ 63) with 9223372036854775808; lia).
  - cbn [write_oid fst] in H. start H.
    match goal with |- stops ?x => change (stops (match read_4bytes p1 with
        | None => XRd D_ERROR p1
        | Some (hi, b2) =>
          match read_4bytes b2 with
          | None => XRd D_ERROR b2
          | Some (lo, b3) => XRd (DOid hi lo) b3
          end
        end)) end.
    destruct (cut _ _ _ _ X1) as [L|(p' & -> & H')].
    + rewrite read_4bytes_short by exact L. apply stop_err.
    + rewrite read_4bytes_put. apply cut_strict in H'; [|exact Q]. rewrite read_4bytes_short by exact H'. apply stop_err.
  - cbn [wput fst] in H. start H.
    match goal with |- stops ?x => change (stops
        (xread_bytes 8 p1 (fun w r => match get8 w with Some n => XRd (DFlo n) r | None => XUnk end))) end.
    change 8%Z with (Z.of_N (llen (put_8bytes w))). rewrite (xread_bytes_cut (put_8bytes w) p1 q); auto. apply stop_err.
Qed.
End Atoms.

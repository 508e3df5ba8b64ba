(** * Lemmas about sequences: positions. *)
From Verif Require Import SeqModel SeqSpec SeqProofs.
Local Open Scope Z_scope.

Definition first_res P l s e r : Prop :=
  (exists p, r = PInt p /\ first_in P l s e p) \/ (r = PInt (-1) /\ none_in P l s e).
Definition last_res P l s e r : Prop :=
  (exists p, r = PInt p /\ last_in P l s e p) \/ (r = PInt (-1) /\ none_in P l s e).

(** Looking at places upwards. *)
Fixpoint up (f : Z -> option bool) (n : nat) (i : Z) : pres :=
  match n with
  | O => PInt (-1)
  | S n' => match f i with
            | None => PJunk | Some true => PInt i | Some false => up f n' (i + 1) end
  end.
Lemma up_ext f g n : forall i, (forall j, i <= j < i + Z.of_nat n -> f j = g j) -> up f n i = up g n i.
Proof.
  induction n as [|n IH]; intros i H; [reflexivity|]. cbn [up].
  rewrite (H i) by lia. destruct (g i) as [[|]|]; try reflexivity. apply IH. intros j Hj. apply H. lia.
Qed.
Lemma up_ok f P l n : forall i,
  (forall j, i <= j < i + Z.of_nat n -> exists b, f j = Some b /\ (b = true <-> holds P l j)) ->
  first_res P l i (i + Z.of_nat n) (up f n i).
Proof.
  induction n as [|n IH]; intros i H; cbn [up].
  - right. split; [reflexivity|]. intros j Hj. lia.
  - destruct (H i ltac:(lia)) as (b & Eb & K). rewrite Eb. destruct b.
    + left. exists i. split; [reflexivity|]. split; [lia|]. split; [now apply K|]. intros j Hj. lia.
    + assert (N : ~ holds P l i) by (intro Q; apply K in Q; discriminate).
      destruct (IH (i + 1)) as [(p & R & A & B & C)|[R A]]; [intros j Hj; apply H; lia| |].
      * left. exists p. split; [exact R|]. split; [lia|]. split; [exact B|]. intros j Hj.
        destruct (Z.eq_dec j i) as [->|]; [exact N|]. apply C. lia.
      * right. split; [exact R|]. intros j Hj.
        destruct (Z.eq_dec j i) as [->|]; [exact N|]. apply A. lia.
Qed.
Lemma down_ok f P l n : forall s,
  (forall j, s <= j < s + Z.of_nat n -> exists b, f j = Some b /\ (b = true <-> holds P l j)) ->
  last_res P l s (s + Z.of_nat n) (down_position f n s).
Proof.
  induction n as [|n IH]; intros s H; cbn [down_position].
  - right. split; [reflexivity|]. intros j Hj. lia.
  - destruct (H (s + Z.of_nat n) ltac:(lia)) as (b & Eb & K). rewrite Eb. destruct b.
    + left. eexists. split; [reflexivity|]. split; [lia|]. split; [now apply K|]. intros j Hj. lia.
    + assert (N : ~ holds P l (s + Z.of_nat n)) by (intro Q; apply K in Q; discriminate).
      destruct (IH s) as [(p & R & A & B & C)|[R A]]; [intros j Hj; apply H; lia| |].
      * left. exists p. split; [exact R|]. split; [lia|]. split; [exact B|]. intros j Hj.
        destruct (Z.eq_dec j (s + Z.of_nat n)) as [->|]; [exact N|]. apply C. lia.
      * right. split; [exact R|]. intros j Hj.
        destruct (Z.eq_dec j (s + Z.of_nat n)) as [->|]; [exact N|]. apply A. lia.
Qed.

(** A test of the element at a place. *)
Lemma test_at A (f : A -> lv) (t : A -> bool) (P : lv -> Prop) (l : list A) j :
  (forall a, t a = true <-> P (f a)) -> 0 <= j < zlen l ->
  exists b, option_map t (zref l j) = Some b /\ (b = true <-> holds P (map f l) j).
Proof.
  intros H Hj. destruct (zref_in _ l j Hj) as (v & E & K). exists (t v). rewrite E. split; [reflexivity|].
  rewrite H. unfold holds. rewrite (map_nth_error f _ _ K). split.
  - intro Q. split; [lia|]. eauto.
  - intros [_ (e & Q & R)]. injection Q as Q. now rewrite Q.
Qed.
Lemma test_id (t : lv -> bool) (P : lv -> Prop) (l : list lv) j :
  (forall a, t a = true <-> P a) -> 0 <= j < zlen l ->
  exists b, option_map t (zref l j) = Some b /\ (b = true <-> holds P l j).
Proof. intros H Hj. pose proof (test_at lv (fun x => x) t P l j H Hj) as K. now rewrite map_id in K. Qed.

Section Positions.
Variable eqv ovl : lv -> lv -> bool.
Notation matches := (matches eqv ovl).

Lemma vec_up key data n : forall i,
  vec_position eqv ovl key data n i
  = up (fun j => option_map (fun e => eqv key e || (choicep e && ovl key e)) (zref data j)) n i.
Proof.
  induction n as [|n IH]; intro i; [reflexivity|]. cbn [vec_position up].
  destruct (zref data i) as [e|]; [|reflexivity]. cbn [option_map].
  destruct (eqv key e); [reflexivity|]. cbn [orb]. destruct (choicep e && ovl key e); auto.
Qed.
Lemma vec_match key e : eqv key e || (choicep e && ovl key e) = true <-> matches KVec key e.
Proof.
  rewrite orb_true_iff, andb_true_iff. cbn. apply or_iff_compat_l. apply and_iff_compat_r.
  destruct e; cbn; split; try (intros; congruence); try (intros [l0 K]; discriminate). intros _; now eexists.
Qed.
Lemma packet_up b data n : forall i,
  packet_position b data n i = up (fun j => option_map (fun e => Z.of_N e =? b) (zref data j)) n i.
Proof.
  induction n as [|n IH]; intro i; [reflexivity|]. cbn [packet_position up].
  destruct (zref data i) as [e|]; [|reflexivity]. cbn [option_map].
  destruct (Z.of_N e =? b); auto.
Qed.
Lemma generic_up_up key x n : forall i,
  generic_up eqv key x n i
  = up (fun j => match seq_elt x j with SOk e => Some (eqv e key) | _ => Some false end) n i.
Proof.
  induction n as [|n IH]; intro i; [reflexivity|]. cbn [generic_up up].
  destruct (seq_elt x i) as [e| | | |]; auto. destruct (eqv e key); auto.
Qed.
Lemma skipn_step A (s : list A) i x r : 0 <= i -> skipn (Z.to_nat i) s = x :: r ->
  zref s i = Some x /\ skipn (Z.to_nat (i + 1)) s = r.
Proof.
  intros Hi. unfold zref. replace (i <? 0) with false by lia.
  replace (Z.to_nat (i + 1)) with (S (Z.to_nat i)) by lia.
  generalize (Z.to_nat i). intro n. clear. revert s. induction n as [|n IH]; intros [|y s] H; try discriminate.
  - cbn in *. now inversion H.
  - cbn [skipn nth_error] in *. now apply IH.
Qed.
Lemma strchr_up c s : c <> 0%N -> forall r i, 0 <= i -> skipn (Z.to_nat i) s = r ->
  match strchr c r with Some j => PInt (i + j) | None => PInt (-1) end
  = up (fun j => option_map (fun e => (e =? c)%N) (zref s j)) (length r) i.
Proof.
  intros Hc r. induction r as [|x r IH]; intros i Hi H.
  - cbn [strchr length up]. rewrite (proj2 (N.eqb_neq c 0)) by assumption. reflexivity.
  - destruct (skipn_step _ _ _ _ _ Hi H) as [E K]. cbn [strchr length up]. rewrite E. cbn [option_map].
    destruct (x =? c)%N; [f_equal; lia|]. rewrite <- (IH (i + 1)) by (try lia; exact K).
    destruct (strchr c r); [f_equal; lia|reflexivity].
Qed.
Lemma scan_up c s : forall n i, 0 <= i -> i + Z.of_nat n <= zlen s ->
  PInt (scan_char c (firstn n (skipn (Z.to_nat i) s)) i)
  = up (fun j => option_map (fun e => (e =? c)%N) (zref s j)) n i.
Proof.
  induction n as [|n IH]; intros i Hi Hn; [reflexivity|].
  destruct (skipn (Z.to_nat i) s) as [|x r] eqn:E.
  - exfalso. assert (K : length (skipn (Z.to_nat i) s) = 0%nat) by now rewrite E.
    rewrite skipn_length in K. unfold zlen in Hn. lia.
  - destruct (skipn_step _ _ _ _ _ Hi E) as [F K]. cbn [firstn scan_char up]. rewrite F. cbn [option_map].
    destruct (x =? c)%N; [reflexivity|]. rewrite <- (IH (i + 1)) by lia. now rewrite K.
Qed.
Lemma strrchr_none c s : c <> 0%N -> ~ In c s -> strrchr c s = None.
Proof.
  intro Hc. induction s as [|x s IH]; intro H; cbn [strrchr]; [now rewrite (proj2 (N.eqb_neq c 0) Hc)|].
  rewrite IH by (intro; apply H; now right). destruct (x =? c)%N eqn:E; [|reflexivity].
  elim H. left. now apply N.eqb_eq.
Qed.
Lemma holds_app_l P pre l i : holds P (pre ++ l) (zlen pre + i) <-> (0 <= zlen pre + i /\ i < 0 /\ holds P pre (zlen pre + i)) \/ holds P l i.
Proof.
  unfold holds, zlen. split.
  - intros [A (e & B & C)]. destruct (Z_lt_ge_dec i 0).
    + left. split; [exact A|]. split; [lia|]. split; [exact A|]. exists e. rewrite nth_error_app1 in B by lia. auto.
    + right. split; [lia|]. exists e. rewrite nth_error_app2 in B by lia.
      replace (Z.to_nat (Z.of_nat (length pre) + i) - length pre)%nat with (Z.to_nat i) in B by lia. auto.
  - intros [(A & B & _ & e & C & D)|[A (e & B & C)]].
    + split; [exact A|]. exists e. rewrite nth_error_app1 by lia. auto.
    + split; [lia|]. exists e. rewrite nth_error_app2 by lia.
      replace (Z.to_nat (Z.of_nat (length pre) + i) - length pre)%nat with (Z.to_nat i) by lia. auto.
Qed.
Lemma pair_position_ok key x l' : proper x l' -> forall pre l s e, l = pre ++ l' ->
  0 <= s <= e -> e <= zlen l -> (s <= zlen pre -> none_in (fun a => eqv a key = true) l s (zlen pre)) ->
  first_res (fun a => eqv a key = true) l s e (pair_position eqv key x (zlen pre) s e).
Proof.
  induction 1 as [|a d l' H IH]; intros pre l s e El Hs He Hn; cbn [pair_position].
  - rewrite app_nil_r in El. subst l. replace (zlen pre <? s) with false by lia.
    replace (zlen pre <? e) with false by lia. rewrite andb_false_r. cbn [orb].
    right. split; [reflexivity|]. intros j Hj. apply Hn; lia.
  - assert (EP : zlen (pre ++ [a]) = zlen pre + 1) by (unfold zlen; rewrite app_length; cbn [length]; lia).
    assert (El' : l = (pre ++ [a]) ++ l') by now rewrite <- app_assoc.
    assert (HA : holds (fun a => eqv a key = true) l (zlen pre) <-> eqv a key = true).
    { subst l. replace (zlen pre) with (zlen pre + 0) at 1 by lia. rewrite holds_app_l. split.
      - intros [[_ [B _]]|[_ (e0 & B & C)]]; [lia|]. cbn in B. now inversion B; subst.
      - intro B. right. split; [lia|]. exists a. split; [reflexivity|exact B]. }
    destruct (zlen pre <? s) eqn:E1.
    + rewrite <- EP. apply IH with (1 := El'); try assumption.
      rewrite EP. intros Q j Hj. lia.
    + destruct (e <=? zlen pre) eqn:E2.
      * right. split; [reflexivity|]. intros j Hj. apply Hn; lia.
      * destruct (eqv a key) eqn:E3.
        -- left. eexists. split; [reflexivity|]. split; [lia|]. split; [now apply HA|]. apply Hn. lia.
        -- rewrite <- EP. apply IH with (1 := El'); try assumption. rewrite EP. intros _ j Hj.
           destruct (Z.eq_dec j (zlen pre)) as [->|]; [intro Q; apply HA in Q; congruence|].
           apply Hn; lia.
Qed.

Lemma up_range f P l s e : s <= e ->
  (forall j, s <= j < e -> exists b, f j = Some b /\ (b = true <-> holds P l j)) ->
  first_res P l s e (up f (Z.to_nat (e - s)) s).
Proof.
  intros Hs H. replace e with (s + Z.of_nat (Z.to_nat (e - s))) at 1 by lia. apply up_ok.
  intros j Hj. apply H. lia.
Qed.
Lemma first_none P l s e : (forall x, In x l -> ~ P x) -> first_res P l s e (PInt (-1)).
Proof.
  intro H. right. split; [reflexivity|]. intros j _ [_ (x & A & B)].
  apply nth_error_In in A. now apply (H x).
Qed.
Definition codes_below (k : kind) (key : lv) : bool :=
  match k, key with
  | KStr, LChar c => (c <? 0x80)%N
  | (KInts _ | KFlos _), _ => true
  | _, _ => false
  end.
Lemma numbers_up key k x l s e :
  is_seq k x l -> match k with KInts _ | KFlos _ => True | _ => False end -> 0 <= s <= e -> e = zlen l ->
  first_res (matches k key) l s e
    (if numberp key then generic_position eqv key x s e else PInt (-1)).
Proof.
  intros H Hk Hs He.
  assert (M : forall a, matches k key a <-> number key /\ eqv a key = true) by (destruct k; try easy).
  destruct (numberp key) eqn:N.
  - assert (Nk : number key) by now destruct key.
    unfold generic_position. rewrite (seq_length_ok _ _ _ H).
    pose proof (zlen_nonneg _ l). replace (zlen l <? 0) with false by lia. replace (e <? 0) with false by lia.
    replace (e <? s) with false by lia. replace (s <? 0) with false by lia. replace (e <? 0) with false by lia.
    cbn [orb]. replace (e <? s) with false by lia. destruct (s <? e) eqn:E.
    + rewrite generic_up_up, <- He. apply up_range; [lia|]. intros j Hj.
      rewrite (seq_elt_ok _ _ _ _ H) by lia. destruct (zref_in _ l j ltac:(lia)) as (v & _ & K).
      rewrite K. exists (eqv v key). split; [reflexivity|]. unfold holds. split.
      * intro Q. split; [lia|]. exists v. split; [exact K|]. now apply M.
      * intros [_ (v' & A & B)]. apply M in B. replace v with v' by congruence. easy.
    + replace (s <? zlen l) with false by lia. right. split; [reflexivity|]. intros j Hj. lia.
  - apply first_none. intros a _ Q. apply M in Q. destruct key; try discriminate; easy.
Qed.

Lemma position_ok k key x l s e : is_seq k x l -> 0 <= s <= e -> e <= zlen l ->
  (codes_below k key = true -> e = zlen l /\ (k = KStr -> key <> LChar 0)) ->
  first_res (matches k key) l s e (kno_position eqv ovl key x s e).
Proof.
  intros H Hs He Hc. unfold kno_position. rewrite (seq_length_ok _ _ _ H).
  pose proof (zlen_nonneg _ l). replace (zlen l <? 0) with false by lia.
  replace (e <? 0) with false by lia. replace (zlen l <? e) with false by lia.
  replace (s <? 0) with false by lia. replace (e <? 0) with false by lia. replace (e <? s) with false by lia.
  cbn [orb]. pose proof H as HS.
  destruct H as [x l H| | tag pre l|st F|bs F|w zs l F H|d fs].
  - pose proof H as H'. destruct H as [|a d l H]; [apply first_none; easy|].
    destruct (s =? e) eqn:E; [right; split; [reflexivity|]; intros j Hj; lia|].
    apply (pair_position_ok key (LPair a d) (a :: l) H' [] (a :: l)); auto. intros _ j Hj. unfold zlen in Hj. cbn in Hj. lia.
  - rewrite vec_up. apply up_range; [lia|]. intros j Hj. apply test_id; [apply vec_match|lia].
  - rewrite skipn_pre, vec_up. apply up_range; [lia|]. intros j Hj. apply test_id; [apply vec_match|lia].
  - rewrite zlen_map in *.
    destruct key; try (apply first_none; intros a Ha; apply in_map_iff in Ha; destruct Ha as (z0 & <- & _);
      cbn; discriminate).
    assert (T : forall a, (a =? c)%N = true <-> matches KStr (LChar c) (LChar a)).
    { intro a. cbn. rewrite N.eqb_eq. split; congruence. }
    unfold string_position. destruct (c <? 128)%N eqn:E.
    + destruct (Hc ltac:(cbn; exact E)) as [-> Nz]. specialize (Nz eq_refl).
      assert (c <> 0%N) by congruence. destruct (s <? zlen st) eqn:E1.
      * rewrite (strchr_up c st) by (auto; lia).
        replace (length (skipn (Z.to_nat s) st)) with (Z.to_nat (zlen st - s)) by
          (rewrite skipn_length; unfold zlen; lia).
        apply up_range; [lia|]. intros j Hj. apply (test_at N LChar (fun e => (e =? c)%N)); [exact T|lia].
      * rewrite skipn_all2 by (unfold zlen in *; lia). cbn [strrchr]. rewrite (proj2 (N.eqb_neq c 0)) by assumption.
        right. split; [reflexivity|]. intros j Hj. lia.
    + unfold sub. rewrite scan_up by (try lia). apply up_range; [lia|].
      intros j Hj. apply (test_at N LChar (fun e => (e =? c)%N)); [exact T|lia].
  - rewrite zlen_map in *.
    destruct key; try (apply first_none; intros a Ha; apply in_map_iff in Ha; destruct Ha as (z0 & <- & _);
      cbn; discriminate).
    destruct ((0 <=? z) && (z <? 256)) eqn:E.
    + rewrite packet_up. apply up_range; [lia|]. intros j Hj.
      apply (test_at N (fun b => LFix (Z.of_N b)) (fun e => Z.of_N e =? z)); [|lia].
      intro a. cbn. rewrite Z.eqb_eq. split; congruence.
    + apply first_none. intros a Ha. apply in_map_iff in Ha. destruct Ha as (b & <- & Hb). cbn. intro Q.
      inversion Q. subst z. rewrite Forall_forall in F. specialize (F _ Hb). lia.
  - apply (numbers_up key (KInts w) (LNumvec w zs)); auto. apply Hc. reflexivity.
  - apply (numbers_up key (KFlos d) (LFlovec d fs)); auto. apply Hc. reflexivity.
Qed.
End Positions.

(** * Lemmas about sequences: last positions, subsequences. *)
From Verif Require Import SeqModel SeqSpec SeqProofs SeqProofs2.
Local Open Scope Z_scope.

(** [up] for any property of places; [None] is allowed if the result is not junk. *)
Lemma up_gen f (Q : Z -> Prop) n : forall i,
  (forall j b, i <= j < i + Z.of_nat n -> f j = Some b -> (b = true <-> Q j)) ->
  up f n i <> PJunk ->
  (exists p, up f n i = PInt p /\ i <= p < i + Z.of_nat n /\ Q p /\ forall j, i <= j < p -> ~ Q j)
  \/ (up f n i = PInt (-1) /\ forall j, i <= j < i + Z.of_nat n -> ~ Q j).
Proof.
  induction n as [|n IH]; intros i H J; cbn [up] in *.
  - right. split; [reflexivity|]. intros j Hj. lia.
  - destruct (f i) as [b|] eqn:Eb; [|now elim J]. assert (K := H i b ltac:(lia) Eb). destruct b.
    + left. exists i. split; [reflexivity|]. split; [lia|]. split; [now apply K|]. intros j Hj. lia.
    + assert (N : ~ Q i) by (intro W; apply K in W; discriminate).
      destruct (IH (i + 1)) as [(p & R & A & B & C)|[R A]]; [intros j b Hj; apply H; lia|exact J| |].
      * left. exists p. split; [exact R|]. split; [lia|]. split; [exact B|]. intros j Hj.
        destruct (Z.eq_dec j i) as [->|]; [exact N|]. apply C. lia.
      * right. split; [exact R|]. intros j Hj.
        destruct (Z.eq_dec j i) as [->|]; [exact N|]. apply A. lia.
Qed.
Lemma up_defined f n : forall i, (forall j, i <= j < i + Z.of_nat n -> f j <> None) -> up f n i <> PJunk.
Proof.
  induction n as [|n IH]; intros i H; cbn [up]; [discriminate|].
  destruct (f i) as [[|]|] eqn:E; [discriminate| |].
  - apply IH. intros j Hj. apply H. lia.
  - elim (H i); [lia|exact E].
Qed.

Section Search.
Variable eqv ovl : lv -> lv -> bool.

(** ** Last positions *)
Notation equals := (equals eqv ovl).
Lemma checked_down_ok f P l s e : 0 <= s <= e -> e <= zlen l ->
  (forall j, s <= j < e -> exists b, f j = Some b /\ (b = true <-> holds P l j)) ->
  last_res P l s e (checked_down f (zlen l) s e).
Proof.
  intros Hs He H. unfold checked_down. replace (e <? 0) with false by lia.
  replace (s <? 0) with false by lia. replace (e <? s) with false by lia.
  replace (zlen l <? s) with false by lia. replace (zlen l <? e) with false by lia. cbn [orb].
  replace e with (s + Z.of_nat (Z.to_nat (e - s))) at 1 by lia. apply down_ok.
  intros j Hj. apply H. lia.
Qed.
Lemma last_none P l s e : (forall x, In x l -> ~ P x) -> last_res P l s e (PInt (-1)).
Proof.
  intro H. right. split; [reflexivity|]. intros j _ [_ (x & A & B)].
  apply nth_error_In in A. now apply (H x).
Qed.
(** The loop that asks for position after position. *)
Lemma last_position_ok P l key x e s0 fuel : forall s last pos,
  (forall i, s0 <= i < e -> first_res P l i e (kno_position eqv ovl key x i e)) ->
  0 <= s0 <= s -> s <= e ->
  (last = -1 /\ none_in P l s0 s /\ s < e) \/ (pos = Some last /\ last_in P l s0 s last) ->
  e - s < Z.of_nat fuel ->
  last_res P l s0 e (last_position eqv ovl fuel key x s e last pos).
Proof.
  induction fuel as [|f IH]; intros s last pos H Hs He Hi Hf; [lia|]. cbn [last_position].
  destruct (s <? e) eqn:E.
  - destruct (H s ltac:(lia)) as [(p & R & A & B & C)|[R A]]; rewrite R.
    + replace (0 <=? p) with true by lia. apply IH; auto; try lia.
      right. split; [reflexivity|]. split; [lia|]. split; [exact B|]. intros j Hj. lia.
    + cbn [Z.leb Z.ltb Z.compare].
      destruct Hi as [(-> & N & _)|(-> & U & V & W)].
      * right. split; [reflexivity|]. intros j Hj. destruct (Z_lt_ge_dec j s); [apply N; lia|apply A; lia].
      * left. exists last. split; [reflexivity|]. split; [lia|]. split; [exact V|]. intros j Hj.
        destruct (Z_lt_ge_dec j s); [apply W; lia|apply A; lia].
  - destruct Hi as [(_ & _ & K)|(-> & U & V & W)]; [lia|]. assert (s = e) by lia. subst s.
    assert (0 <= last) by (destruct V; lia). replace (last <? -1) with false by lia.
    left. exists last. repeat split; auto; try lia; apply V.
Qed.
Lemma last_loop k key x l s e : is_seq k x l -> 0 <= s < e -> e <= zlen l ->
  (codes_below k key = true -> e = zlen l /\ (k = KStr -> key <> LChar 0)) ->
  last_res (matches eqv ovl k key) l s e
    (last_position eqv ovl (Z.to_nat (seq_length x) + 2) key x s e (-1) None).
Proof.
  intros H Hs He Hc. rewrite (seq_length_ok _ _ _ H). apply last_position_ok; try lia.
  - intros i Hi. apply position_ok; auto; lia.
  - left. split; [reflexivity|]. split; [intros j Hj; lia|lia].
Qed.
Lemma strrchr_ok c s : c <> 0%N ->
  match strrchr c s with
  | Some i => last_in (fun e => e = LChar c) (map LChar s) 0 (zlen s) i
  | None => none_in (fun e => e = LChar c) (map LChar s) 0 (zlen s)
  end.
Proof.
  intro Hc. induction s as [|x s IH]; cbn [strrchr].
  - rewrite (proj2 (N.eqb_neq c 0) Hc). intros j Hj. unfold zlen in Hj. cbn in Hj. lia.
  - assert (Z1 : zlen (x :: s) = 1 + zlen s) by (unfold zlen; cbn [length]; lia).
    assert (T : forall j, holds (fun e => e = LChar c) (map LChar (x :: s)) (j + 1) <->
                          holds (fun e => e = LChar c) (map LChar s) j \/ (j = -1 /\ x = c)).
    { intro j. unfold holds. split.
      - intros [A (e & B & C)]. destruct (Z.eq_dec j (-1)) as [->|].
        + right. split; [reflexivity|]. cbn in B. congruence.
        + left. split; [lia|]. exists e. replace (Z.to_nat (j + 1)) with (S (Z.to_nat j)) in B by lia. auto.
      - intros [[A (e & B & C)]|[-> ->]].
        + split; [lia|]. exists e. replace (Z.to_nat (j + 1)) with (S (Z.to_nat j)) by lia. auto.
        + split; [lia|]. exists (LChar c). auto. }
    assert (T0 : forall j, holds (fun e => e = LChar c) (map LChar (x :: s)) j <->
                          holds (fun e => e = LChar c) (map LChar s) (j - 1) \/ (j = 0 /\ x = c)).
    { intro j. rewrite <- (Z.sub_add 1 j) at 1. rewrite T. apply or_iff_compat_l. split; intros [A B]; split; auto; lia. }
    destruct (strrchr c s) as [i|].
    + destruct IH as (A & B & C). rewrite Z1. split; [lia|]. split.
      * rewrite T. now left.
      * intros j Hj. rewrite T0. intros [K|[K _]]; [|lia]. revert K. apply C. lia.
    + destruct (x =? c)%N eqn:E.
      * apply N.eqb_eq in E. pose proof (zlen_nonneg _ s). rewrite Z1. split; [lia|]. split; [rewrite T0; auto|].
        intros j Hj. rewrite T0. intros [K|[K _]]; [|lia]. revert K. apply IH. lia.
      * apply N.eqb_neq in E. intros j Hj. rewrite T0. intros [K|[K L]]; [|congruence].
        assert (0 <= j - 1) by apply K. revert K. apply IH. lia.
Qed.
Lemma after_ascii s : Forall (fun c => (c < 0x80)%N) s -> forall i k, 0 <= i <= zlen s ->
  after_bytes s i k = Some (k + i, skipn (Z.to_nat i) s).
Proof.
  induction 1 as [|c s Hc H IH]; intros i k Hi; unfold zlen in Hi; cbn [length] in Hi; cbn [after_bytes].
  - replace (i <=? 0) with true by lia. replace i with 0 by lia. rewrite Z.add_0_r. reflexivity.
  - destruct (i <=? 0) eqn:E.
    + replace i with 0 by lia. now rewrite Z.add_0_r.
    + unfold utf8_len. rewrite (proj2 (N.ltb_lt c 0x80) Hc), IH by (unfold zlen; lia).
      replace (Z.to_nat i) with (S (Z.to_nat (i - 1))) by lia. cbn [skipn]. do 2 f_equal. lia.
Qed.
Lemma rposition_ok k key x l s e : is_seq k x l -> 0 <= s <= e -> e <= zlen l ->
  match k with KVec | KComp | KPacket => True | _ => s < e end ->
  (codes_below k key = true -> e = zlen l /\ (k = KStr -> key <> LChar 0)) ->
  (k = KStr -> codes_below k key = true -> forall c, In (LChar c) l -> (c < 0x80)%N) ->
  last_res (equals k key) l s e (kno_rposition eqv ovl key x s e).
Proof.
  intros H Hs He Hk Hc Ha. pose proof H as HS.
  assert (LL := last_loop k key x l s e H).
  destruct H as [x l H| l| tag pre l|st F|bs F|w zs l F H|d fs]; cbn [equals] in *.
  - assert (N : x <> LNil) by (intros ->; apply proper_nil_inv in H; subst; unfold zlen in He; cbn in He; lia).
    destruct H; [now elim N|]. apply LL; auto; lia.
  - apply checked_down_ok; auto. intros j Hj. apply test_id; [reflexivity|lia].
  - cbn [kno_rposition]. rewrite skipn_pre.
    replace (zlen (pre ++ l) - Z.of_nat (length pre)) with (zlen l) by (unfold zlen; rewrite app_length; lia).
    apply checked_down_ok; auto. intros j Hj. apply test_id; [reflexivity|lia].
  - cbn [kno_rposition]. destruct key; try (apply LL; auto; lia).
    destruct (c <? 128)%N eqn:E; [|apply LL; auto; lia].
    destruct (Hc ltac:(cbn; exact E)) as [-> Nz]. specialize (Nz eq_refl). rewrite zlen_map in *.
    assert (A : Forall (fun c => (c < 0x80)%N) st).
    { apply Forall_forall. intros y Hy. apply (Ha eq_refl E). now apply in_map. }
    replace (s <? 0) with false by lia. rewrite after_ascii by (auto; lia). rewrite Z.add_0_l.
    assert (Nc : c <> 0%N) by congruence.
    assert (K := strrchr_ok c (skipn (Z.to_nat s) st) Nc).
    assert (Zs : zlen (skipn (Z.to_nat s) st) = zlen st - s) by (unfold zlen; rewrite skipn_length; unfold zlen in *; lia).
    rewrite Zs in K.
    assert (T : forall j, 0 <= j -> holds (fun e => e = LChar c) (map LChar (skipn (Z.to_nat s) st)) j <->
                          holds (fun e => e = LChar c) (map LChar st) (s + j)).
    { intros j Hj. rewrite <- skipn_map. unfold holds.
      assert (Q : nth_error (skipn (Z.to_nat s) (map LChar st)) (Z.to_nat j)
                  = nth_error (map LChar st) (Z.to_nat (s + j))).
      { rewrite <- (firstn_skipn (Z.to_nat s) (map LChar st)) at 2.
        rewrite nth_error_app2 by (rewrite firstn_length, map_length; unfold zlen in *; lia).
        f_equal. rewrite firstn_length, map_length. unfold zlen in *. lia. }
      rewrite Q. split; intros [A1 A2]; (split; [lia|exact A2]). }
    destruct (strrchr c (skipn (Z.to_nat s) st)) as [i|].
    + destruct K as (A1 & A2 & A3). replace (s + i <? zlen st) with true by lia.
      left. eexists. split; [reflexivity|]. split; [lia|]. split; [apply T; [lia|exact A2]|].
      intros j Hj. replace j with (s + (j - s)) by lia. intro Q. apply T in Q; [|lia].
      revert Q. apply A3. lia.
    + right. split; [reflexivity|]. intros j Hj. replace j with (s + (j - s)) by lia. intro Q.
      apply T in Q; [|lia]. revert Q. apply K. lia.
  - cbn [kno_rposition]. rewrite zlen_map in *.
    destruct key; try (apply last_none; intros a Hb; apply in_map_iff in Hb; destruct Hb as (z0 & <- & _);
      cbn; discriminate).
    destruct ((z <? 0) || (255 <? z)) eqn:E.
    + apply last_none. intros a Hb. apply in_map_iff in Hb. destruct Hb as (b & <- & Hb). cbn. intro Q.
      injection Q as Q. subst z. rewrite Forall_forall in F. specialize (F _ Hb). lia.
    + rewrite <- (zlen_map _ _ (fun b => LFix (Z.of_N b)) bs).
      apply checked_down_ok; [lia|rewrite zlen_map; lia|]. intros j Hj.
      apply (test_at N (fun b => LFix (Z.of_N b)) (fun e => Z.of_N e =? z)); [|lia].
      intro a. cbn. rewrite Z.eqb_eq. split; congruence.
  - apply LL; auto; lia.
  - apply LL; auto; lia.
Qed.

(** ** Subsequences *)
Lemma sub_at_skip R k l i : 0 <= i -> k <> [] ->
  (sub_at R k l i <-> exists mid post, skipn (Z.to_nat i) l = mid ++ post /\ Forall2 R k mid).
Proof.
  intros Hi Hk. unfold sub_at. split.
  - intros [_ (pre & mid & post & -> & L & F)]. exists mid, post. split; [|exact F].
    replace (Z.to_nat i) with (length pre) by lia. apply skipn_pre.
  - intros (mid & post & E & F). split; [exact Hi|].
    exists (firstn (Z.to_nat i) l), mid, post. split; [|split; [|exact F]].
    + rewrite <- E. now rewrite firstn_skipn.
    + destruct F as [|a b k mid]; [now elim Hk|].
      assert (K : length (skipn (Z.to_nat i) l) = length ((b :: mid) ++ post)) by now rewrite E.
      rewrite skipn_length in K. cbn [length app] in K. rewrite firstn_length. lia.
Qed.
Lemma sub_at_len R k l i : sub_at R k l i -> i + zlen k <= zlen l.
Proof.
  intros [_ (pre & mid & post & -> & L & F)]. unfold zlen. rewrite !app_length.
  rewrite <- L. clear L. enough (length k = length mid) by lia. now induction F; cbn; [|f_equal].
Qed.

Definition vrel (a b : lv) : Prop := eqv a b = true \/ ((exists l, b = LChoice l) /\ ovl a b = true).
Lemma vrel_b a b : eqv a b || (choicep b && ovl a b) = true <-> vrel a b.
Proof. apply (vec_match eqv ovl a b). Qed.
Lemma vec_match_ok k : forall v, (length k <= length v)%nat ->
  exists b, SeqModel.vec_match eqv ovl k v = Some b /\
    (b = true <-> exists mid post, v = mid ++ post /\ Forall2 vrel k mid).
Proof.
  induction k as [|x k IH]; intros [|y v] L; cbn [length] in L; try lia.
  - exists true. split; [reflexivity|]. split; [|reflexivity]. intros _. exists [], []. repeat constructor.
  - exists true. split; [reflexivity|]. split; [|reflexivity]. intros _. exists [], (y :: v). repeat constructor.
  - cbn [SeqModel.vec_match]. destruct (eqv x y || (choicep y && ovl x y)) eqn:E.
    + destruct (IH v ltac:(lia)) as (b & B1 & B2). exists b. split; [exact B1|]. rewrite B2.
      apply vrel_b in E. split.
      * intros (mid & post & -> & F). exists (y :: mid), post. split; [reflexivity|]. now constructor.
      * intros (mid & post & K & F). inversion F; subst. inversion K; subst. eauto.
    + exists false. split; [reflexivity|]. split; [discriminate|].
      intros (mid & post & K & F). inversion F; subst. inversion K; subst.
      apply vrel_b in H1. congruence.
Qed.
Lemma skipn_at A (l : list A) i : 0 <= i < zlen l -> exists x, zref l i = Some x /\
  skipn (Z.to_nat i) l = x :: skipn (Z.to_nat (i + 1)) l.
Proof.
  intro Hi. destruct (skipn (Z.to_nat i) l) as [|x r] eqn:E.
  - assert (K : length (skipn (Z.to_nat i) l) = 0%nat) by now rewrite E.
    rewrite skipn_length in K. unfold zlen in Hi. lia.
  - destruct (skipn_step _ _ _ _ _ (proj1 Hi) E) as [A1 A2]. exists x. split; [exact A1|]. now rewrite A2.
Qed.
Lemma vector_search_ok (k l : list lv) s e : k <> [] -> 0 <= s < e -> e <= zlen l ->
  (forall a b, eqv a b = eqv b a) -> (forall a b, ovl a b = ovl b a) ->
  (exists p, vector_search eqv ovl k l s e = PInt p /\ first_sub vrel k l s e p)
  \/ (vector_search eqv ovl k l s e = PInt (-1) /\ no_sub vrel k l s e).
Proof.
  intros Hk Hs He SE SO. unfold vector_search.
  assert (0 < zlen k) by (destruct k; [now elim Hk|]; unfold zlen; cbn [length]; lia).
  replace (zlen k =? 0) with false by lia. destruct (e - s <? zlen k) eqn:E.
  - right. split; [reflexivity|]. intros j Hj1 Hj2. unfold zlen in *. lia.
  - set (n := Z.to_nat (e - zlen k + 1 - s)).
    set (f := fun i => match zref l i, k with
              | Some x, k0 :: kr => if eqv x k0 || (choicep x && ovl x k0)
                                    then SeqModel.vec_match eqv ovl kr (skipn (Z.to_nat (i + 1)) l)
                                    else Some false
              | _, _ => None end).
    assert (U : forall m i, vec_scan eqv ovl k l m i = up f m i).
    { induction m as [|m IH]; intro i; [reflexivity|]. cbn [vec_scan up]. unfold f.
      destruct (zref l i) as [x|]; [|reflexivity]. destruct k as [|k0 kr]; [reflexivity|].
      destruct (eqv x k0 || (choicep x && ovl x k0)); [|apply IH].
      destruct (SeqModel.vec_match eqv ovl kr (skipn (Z.to_nat (i + 1)) l)) as [[|]|]; auto. }
    assert (D : forall j, s <= j < s + Z.of_nat n ->
              exists b, f j = Some b /\ (b = true <-> sub_at vrel k l j)).
    { intros j Hj. destruct (skipn_at _ l j ltac:(lia)) as (x & X1 & X2). unfold f. rewrite X1.
      destruct k as [|k0 kr]; [now elim Hk|].
      assert (Zk : zlen (k0 :: kr) = 1 + zlen kr) by (unfold zlen; cbn [length]; lia).
      rewrite (SE x k0), (SO x k0).
      assert (Q : sub_at vrel (k0 :: kr) l j <-> vrel k0 x /\
                  exists mid post, skipn (Z.to_nat (j + 1)) l = mid ++ post /\ Forall2 vrel kr mid).
      { rewrite sub_at_skip by (try lia; discriminate). rewrite X2. split.
        - intros (mid & post & A & B). inversion B; subst. inversion A; subst. split; [assumption|]. eauto.
        - intros (A & mid & post & B & C). exists (x :: mid), post. rewrite B. split; [reflexivity|]. now constructor. }
      destruct (eqv k0 x || (choicep x && ovl k0 x)) eqn:Ex.
      - apply vrel_b in Ex.
        destruct (vec_match_ok kr (skipn (Z.to_nat (j + 1)) l)) as (b & B1 & B2).
        { rewrite skipn_length. unfold zlen in *. lia. }
        exists b. split; [exact B1|]. rewrite Q, B2. tauto.
      - exists false. split; [reflexivity|]. rewrite Q. split; [discriminate|]. intros [A _]. apply vrel_b in A. congruence. }
    rewrite U. destruct (up_gen f (sub_at vrel k l) n s) as [(p & R & A & B & C)|[R A]].
    + intros j b Hj Fj. destruct (D j Hj) as (b' & D1 & D2). congruence.
    + apply up_defined. intros j Hj. destruct (D j Hj) as (b' & D1 & D2). congruence.
    + left. exists p. split; [exact R|]. repeat split; auto; try lia. unfold zlen in *. lia. apply B.
    + right. split; [exact R|]. intros j Hj1 Hj2. apply A. unfold zlen in *. lia.
Qed.

(** Strings. *)
Lemma starts_ok k : forall s, starts_with s k = true <-> exists post, s = k ++ post.
Proof.
  induction k as [|x k IH]; intros s.
  - destruct s; cbn; split; eauto.
  - destruct s as [|y s]; [split; [discriminate|intros [p K]; discriminate]|].
    cbn [starts_with app]. rewrite andb_true_iff, N.eqb_eq, IH. split.
    + intros [-> [p ->]]. eauto.
    + intros [p K]. inversion K. eauto.
Qed.
Lemma strstr_up k s : forall r i, 0 <= i -> skipn (Z.to_nat i) s = r ->
  match strstr r k with Some j => PInt (i + j) | None => PInt (-1) end
  = up (fun j => Some (starts_with (skipn (Z.to_nat j) s) k)) (S (length r)) i.
Proof.
  induction r as [|x r IH]; intros i Hi H; cbn [strstr length up]; rewrite H.
  - destruct (starts_with [] k); [f_equal; lia|reflexivity].
  - destruct (starts_with (x :: r) k); [f_equal; lia|].
    destruct (skipn_step _ _ _ _ _ Hi H) as [_ K]. specialize (IH (i + 1) ltac:(lia) K).
    cbn [up] in IH. rewrite K in IH. rewrite K. rewrite <- IH. destruct (strstr r k); [f_equal; lia|reflexivity].
Qed.
Lemma map_char_inj (a b : list N) : map LChar a = map LChar b -> a = b.
Proof. revert b. induction a as [|x a IH]; intros [|y b] H; try discriminate; [reflexivity|]. cbn in H. inversion H. f_equal; auto. Qed.
Lemma forall2_eq A (a b : list A) : Forall2 eq a b <-> a = b.
Proof.
  split; [induction 1; congruence|]. intros ->. induction b; constructor; auto.
Qed.
Lemma sub_char A (f : A -> lv) (k s : list A) j : (forall a b, map f a = map f b -> a = b) -> 0 <= j -> k <> [] ->
  (sub_at eq (map f k) (map f s) j <-> exists post, skipn (Z.to_nat j) s = k ++ post).
Proof.
  intros Inj Hj Hk. assert (map f k <> []) by (destruct k; [now elim Hk|discriminate]). rewrite sub_at_skip by assumption.
  rewrite skipn_map. split.
  - intros (mid & post & A1 & A2). apply forall2_eq in A2. subst mid.
    exists (skipn (length k) (skipn (Z.to_nat j) s)).
    assert (K : map f k = map f (firstn (length k) (skipn (Z.to_nat j) s))).
    { rewrite <- firstn_map, A1. rewrite firstn_app, map_length, Nat.sub_diag, firstn_O, app_nil_r.
      rewrite firstn_all2 by (rewrite map_length; lia). reflexivity. }
    apply Inj in K. pose proof (firstn_skipn (length k) (skipn (Z.to_nat j) s)) as Q.
    rewrite <- K in Q. now rewrite Q.
  - intros [post ->]. exists (map f k), (map f post). rewrite map_app. split; [reflexivity|]. now apply forall2_eq.
Qed.
Lemma string_search_ok (k s : list N) i : k <> [] -> 0 <= i < zlen s ->
  (exists p, string_search k s i (zlen s) = PInt p /\ first_sub eq (map LChar k) (map LChar s) i (zlen s) p)
  \/ (string_search k s i (zlen s) = PInt (-1) /\ no_sub eq (map LChar k) (map LChar s) i (zlen s)).
Proof.
  intros Hk Hi. unfold string_search.
  assert (0 < zlen k) by (destruct k; [now elim Hk|]; unfold zlen; cbn [length]; lia).
  replace (zlen k =? 0) with false by lia. replace (zlen s =? 0) with false by lia.
  replace (i <? 0) with false by lia. replace (zlen s <? i) with false by lia.
  replace (zlen s <? 0) with false by lia. replace (zlen s - i <? zlen s - i) with false by lia.
  assert (K := strstr_up k s _ i ltac:(lia) eq_refl).
  set (n := S (length (skipn (Z.to_nat i) s))) in K.
  assert (Ln : Z.of_nat n = zlen s - i + 1) by (unfold n; rewrite skipn_length; unfold zlen in *; lia).
  destruct (up_gen (fun j => Some (starts_with (skipn (Z.to_nat j) s) k))
              (sub_at eq (map LChar k) (map LChar s)) n i) as [(p & R & A & B & C)|[R A]].
  - intros j b Hj E. injection E as <-. rewrite starts_ok, (sub_char _ LChar) by (auto using map_char_inj; lia). tauto.
  - apply up_defined. discriminate.
  - assert (Q := sub_at_len _ _ _ _ B). rewrite !zlen_map in Q.
    left. exists p. rewrite R in K. destruct (strstr (skipn (Z.to_nat i) s) k) as [j|]; [|injection K; lia].
    injection K as K. replace (j <? zlen s - i) with true by lia. split; [congruence|].
    repeat split; auto; try lia; [rewrite map_length; unfold zlen in *; lia|apply B].
  - right. rewrite R in K. split.
    + destruct (strstr (skipn (Z.to_nat i) s) k) as [j|] eqn:Ej; [|reflexivity].
      exfalso. injection K as K. assert (0 <= j); [|lia]. clear -Ej. revert j Ej.
      generalize (skipn (Z.to_nat i) s). induction l as [|x l IH]; intros j Ej; cbn [strstr] in Ej.
      * destruct (starts_with [] k); [injection Ej; lia|discriminate].
      * destruct (starts_with (x :: l) k); [injection Ej; lia|].
        destruct (strstr l k); [|discriminate]. specialize (IH _ eq_refl). injection Ej. lia.
    + intros j Hj1 Hj2. rewrite map_length in Hj2. apply A. unfold zlen in *. lia.
Qed.

(** Packets. *)
Lemma memeq_ok k : forall s b, memeq s k = Some b -> (b = true <-> exists post, s = k ++ post).
Proof.
  induction k as [|x k IH]; intros s b.
  - destruct s; cbn; intros [= <-]; split; eauto.
  - destruct s as [|y s]; [discriminate|]. cbn [memeq app]. destruct (x =? y)%N eqn:E.
    + apply N.eqb_eq in E. subst y. intro K. rewrite (IH _ _ K). split; intros [p Q].
      * exists p. congruence.
      * inversion Q. eauto.
    + apply N.eqb_neq in E. intros [= <-]. split; [discriminate|]. intros [p Q]. inversion Q. congruence.
Qed.
Definition bytev (b : N) : lv := LFix (Z.of_N b).
Lemma map_byte_inj (a b : list N) : map bytev a = map bytev b -> a = b.
Proof.
  revert b. induction a as [|x a IH]; intros [|y b] H; try discriminate; [reflexivity|].
  cbn in H. inversion H. f_equal; [lia|auto].
Qed.
Lemma packet_search_ok (k s : list N) i : k <> [] -> 0 <= i < zlen s ->
  packet_search k s i (zlen s) <> PJunk ->
  (exists p, packet_search k s i (zlen s) = PInt p /\ first_sub eq (map bytev k) (map bytev s) i (zlen s) p)
  \/ (packet_search k s i (zlen s) = PInt (-1) /\ no_sub eq (map bytev k) (map bytev s) i (zlen s)).
Proof.
  intros Hk Hi. unfold packet_search.
  assert (0 < zlen k) by (destruct k; [now elim Hk|]; unfold zlen; cbn [length]; lia).
  replace (zlen k =? 0) with false by lia. destruct (zlen s - i <? zlen k) eqn:E.
  - intros _. right. split; [reflexivity|]. intros j Hj1 Hj2. rewrite map_length in Hj2. unfold zlen in *. lia.
  - set (f := fun j => match zref s j, k with
              | Some b, k0 :: _ => if (b =? k0)%N then memeq (skipn (Z.to_nat j) s) k else Some false
              | _, _ => None end).
    assert (U : forall m j, packet_scan k s m j = up f m j).
    { induction m as [|m IH]; intro j; [reflexivity|]. cbn [packet_scan up]. unfold f at 1.
      destruct (zref s j) as [x|]; [|reflexivity]. destruct k as [|k0 kr]; [reflexivity|].
      destruct (x =? k0)%N; [|apply IH].
      destruct (memeq (skipn (Z.to_nat j) s) (k0 :: kr)) as [[|]|]; auto. }
    rewrite U. intro J.
    destruct (up_gen f (sub_at eq (map bytev k) (map bytev s)) (Z.to_nat (zlen s - i)) i) as [(p & R & A & B & C)|[R A]].
    + intros j b Hj Fj. unfold f in Fj. destruct (skipn_at _ s j ltac:(lia)) as (x & X1 & X2).
      rewrite X1 in Fj. destruct k as [|k0 kr] eqn:Ek; [now elim Hk|]. rewrite <- Ek in *.
      rewrite (sub_char _ bytev) by (auto using map_byte_inj; try lia; congruence).
      destruct (x =? k0)%N eqn:Ex; [now apply memeq_ok|]. apply N.eqb_neq in Ex.
      injection Fj as <-. split; [discriminate|]. intros [post Q]. rewrite X2, Ek in Q. inversion Q. congruence.
    + exact J.
    + left. assert (Q := sub_at_len _ _ _ _ B). rewrite !zlen_map in Q. exists p. split; [exact R|].
      repeat split; auto; try lia; [rewrite map_length; unfold zlen in *; lia|apply B].
    + right. split; [exact R|]. intros j Hj1 Hj2. rewrite map_length in Hj2. apply A. unfold zlen in *. lia.
Qed.
End Search.

(** ** Making sequences *)
Lemma string_elts_ok s : string_elts (map LChar s) = Some (Some s).
Proof. induction s as [|c s IH]; [reflexivity|]. cbn [map string_elts]. now rewrite IH. Qed.
Lemma packet_elts_ok bs : Forall (fun b => (b < 256)%N) bs ->
  packet_elts (map (fun b => LFix (Z.of_N b)) bs) = Some bs.
Proof.
  induction 1 as [|b bs Hb H IH]; [reflexivity|]. cbn [map packet_elts byte_of].
  change (2 ^ 32) with 4294967296.
  replace (0 <=? Z.of_N b) with true by lia. replace (Z.of_N b <? 4294967296) with true by lia. cbn [andb].
  rewrite IH. do 2 f_equal. rewrite Z.mod_small by lia. lia.
Qed.
(** Elements a sequence of kind [k] can have. *)
Definition elt_ok (k : kind) (e : lv) : Prop :=
  match k with
  | KStr => exists c, e = LChar c /\ c <> 0%N
  | KPacket => exists b, e = LFix (Z.of_N b) /\ (b < 256)%N
  | _ => True
  end.
Lemma is_seq_elts k x l : is_seq k x l -> Forall (elt_ok k) l.
Proof.
  intro H. apply Forall_forall. intros e He.
  destruct H as [x l H| l| tag pre l|st F|bs F|w zs l F H|d fs]; cbn; auto.
  - apply in_map_iff in He. destruct He as (c & <- & K). rewrite Forall_forall in F. eauto.
  - apply in_map_iff in He. destruct He as (c & <- & K). rewrite Forall_forall in F. eauto.
Qed.
Lemma str_elts l : Forall (elt_ok KStr) l -> exists s, l = map LChar s /\ Forall (fun c => c <> 0%N) s.
Proof.
  induction 1 as [|e l (c & -> & Hc) H (s & -> & Hs)]; [now exists []|].
  exists (c :: s). split; [reflexivity|]. now constructor.
Qed.
Lemma pack_elts l : Forall (elt_ok KPacket) l ->
  exists s, l = map (fun b => LFix (Z.of_N b)) s /\ Forall (fun b => (b < 256)%N) s.
Proof.
  induction 1 as [|e l (c & -> & Hc) H (s & -> & Hs)]; [now exists []|].
  exists (c :: s). split; [reflexivity|]. now constructor.
Qed.
Definition ktype (k : kind) : stype :=
  match k with
  | KList => TPair | KVec => TVec | KComp => TComp | KStr => TStr | KPacket => TPacket
  | KInts _ | KFlos _ => TNum end.
Lemma makeseq_ok k l : Forall (elt_ok k) l -> exists r, makeseq (ktype k) l = SOk r /\ is_seq (made k) r l.
Proof.
  intro H. destruct k; cbn [ktype made makeseq]; try (eexists; split; [reflexivity|constructor]).
  - apply proper_fold.
  - destruct (str_elts _ H) as (s & -> & Hs). rewrite string_elts_ok. eexists; split; [reflexivity|]. now constructor.
  - destruct (pack_elts _ H) as (s & -> & Hs). rewrite packet_elts_ok by exact Hs.
    eexists; split; [reflexivity|]. now constructor.
Qed.

(** ** Reversing *)
Lemma reverse_list_ok x l : proper x l -> forall r m, proper r m ->
  exists y, reverse_list x r = SOk y /\ proper y (rev l ++ m).
Proof.
  induction 1 as [|a d l H IH]; intros r m Hr; cbn [reverse_list].
  - eauto.
  - destruct (IH (LPair a r) (a :: m)) as (y & Y1 & Y2); [now constructor|].
    exists y. split; [exact Y1|]. cbn [rev]. now rewrite <- app_assoc.
Qed.
Lemma stypeof_ok k x l : is_seq k x l -> x <> LNil -> stypeof x = ktype k.
Proof. intros H N. destruct H as [x l H| | | | | |]; try reflexivity. destruct H; [now elim N|reflexivity]. Qed.
Lemma reverse_ok k x l : is_seq k x l -> match k with KInts _ | KFlos _ => False | _ => True end ->
  exists r, kno_reverse x = SOk r /\ is_seq (made k) r (rev l).
Proof.
  intros H Hk.
  assert (G : k <> KList -> exists r, makeseq (stypeof x) (rev l) = SOk r /\ is_seq (made k) r (rev l)).
  { intro N. rewrite (stypeof_ok _ _ _ H).
    - apply makeseq_ok. apply Forall_rev. eapply is_seq_elts; eauto.
    - intros ->. inversion H. now subst. }
  assert (E := seq_elts_ok _ _ _ H).
  destruct H as [x l H| l| tag pre l|st F|bs F|w zs l F H|d fs]; try (now elim Hk);
    try (unfold kno_reverse; rewrite E; apply G; discriminate).
  destruct (reverse_list_ok x l H LNil [] proper_nil) as (y & Y1 & Y2). rewrite app_nil_r in Y2.
  exists y. split; [|now constructor]. destruct H; [cbn in Y1|]; exact Y1.
Qed.

(** ** Removing *)
Lemma remove_loop_ok eqv item x l k : is_seq k x l -> forall n i, 0 <= i -> i + Z.of_nat n = zlen l ->
  exists b, remove_loop eqv item x n i
    = Some (filter (fun e => negb (eqv e item)) (skipn (Z.to_nat i) l), b)
    /\ (b = false -> filter (fun e => negb (eqv e item)) (skipn (Z.to_nat i) l) = skipn (Z.to_nat i) l).
Proof.
  intro H. induction n as [|n IH]; intros i Hi Hn; cbn [remove_loop].
  - rewrite skipn_all2 by (unfold zlen in *; lia). exists false. split; reflexivity.
  - destruct (skipn_at _ l i ltac:(lia)) as (e & E1 & E2).
    rewrite (seq_elt_ok _ _ _ _ H Hi). unfold zref in E1. replace (i <? 0) with false in E1 by lia. rewrite E1, E2.
    destruct (IH (i + 1) ltac:(lia) ltac:(lia)) as (b & -> & B). cbn [filter].
    destruct (eqv e item); cbn [negb]; [exists true; split; [reflexivity|discriminate]|].
    exists b. split; [reflexivity|]. intro K. now rewrite (B K).
Qed.
Lemma remove_ok eqv item k x l : is_seq k x l ->
  exists r, kno_remove eqv item x = SOk r /\
    (is_seq k r (filter (fun e => negb (eqv e item)) l) \/ is_seq (made k) r (filter (fun e => negb (eqv e item)) l)).
Proof.
  intro H. unfold kno_remove. rewrite (seq_sequencep _ _ _ H). cbn [negb].
  assert (D : x = LNil \/ x <> LNil) by (destruct x; auto; right; discriminate).
  destruct D as [->|D].
  - exists LNil. split; [reflexivity|]. inversion H; subst. apply proper_nil_inv in H0. subst. left. exact H.
  - rewrite (seq_length_ok _ _ _ H).
    destruct (remove_loop_ok eqv item x l k H (Z.to_nat (zlen l)) 0 ltac:(lia)) as (b & R & B).
    { pose proof (zlen_nonneg _ l). lia. }
    cbn [Z.to_nat skipn] in R, B. rewrite R.
    assert (T : stypeof x = ktype k) by now apply (stypeof_ok _ _ l).
    assert (exists r, (if b then makeseq (stypeof x) (filter (fun e => negb (eqv e item)) l) else SOk x) = SOk r /\
      (is_seq k r (filter (fun e => negb (eqv e item)) l) \/ is_seq (made k) r (filter (fun e => negb (eqv e item)) l))) as (r & R1 & R2).
    { destruct b.
      - rewrite T. destruct (makeseq_ok k (filter (fun e => negb (eqv e item)) l)) as (r & R1 & R2); [|eauto].
        apply is_seq_elts in H. rewrite Forall_forall in *. intros e He. apply filter_In in He. apply H. apply He.
      - exists x. split; [reflexivity|]. left. now rewrite (B eq_refl). }
    exists r. split; [|exact R2]. rewrite <- R1.
    destruct b, x; try reflexivity; try (now elim D); destruct secret; try reflexivity; inversion H as [? ? K| | | | | |]; inversion K.
Qed.

(** ** Appending *)
Lemma append_same k t xs ls : Forall2 (is_seq k) xs ls -> t = ktype k ->
  append_loop t xs = Some (t, concat ls).
Proof.
  intros H ->. induction H as [|x l xs ls H F IH]; [reflexivity|]. cbn [append_loop concat].
  rewrite (seq_elts_ok _ _ _ H).
  replace (append_type (ktype k) x) with (ktype k); [now rewrite IH|].
  unfold append_type. assert (D : x = LNil \/ x <> LNil) by (destruct x; auto; right; discriminate).
  destruct D as [->|D].
  - inversion H; subst. reflexivity.
  - rewrite (stypeof_ok _ _ _ H D). assert (stype_eqb (ktype k) (ktype k) = true) as -> by now destruct k.
    destruct x; try reflexivity. now elim D.
Qed.
Definition of_kind (x : lv) (kl : kind * list lv) : Prop := is_seq (fst kl) x (snd kl).
Lemma append_step k x l t : is_seq k x l -> t <> TSecret /\ t <> TOther -> (t = TStr -> k <> KPacket) ->
  (append_type t x = t /\ ktype k = t) \/ append_type t x = TVec.
Proof.
  intros H [Ht Ho] Hs. unfold append_type.
  assert (D : x = LNil \/ x <> LNil) by (destruct x; auto; right; discriminate).
  destruct D as [->|D].
  - assert (k = KList) as -> by now inversion H. destruct t; cbn; auto; now elim Ho.
  - rewrite (stypeof_ok _ _ _ H D). replace (match x with LNil => stype_eqb t TPair | _ => false end) with false
      by (destruct x; try reflexivity; now elim D).
    destruct k, t; cbn; auto; try (now elim Ht); try (now elim Ho); now elim Hs.
Qed.
Lemma append_vec xs kls : Forall2 of_kind xs kls ->
  append_loop TVec xs = Some (TVec, concat (map snd kls)).
Proof.
  induction 1 as [|x [k l] xs kls H F IH]; [reflexivity|].
  cbn [append_loop map concat snd fst] in *. rewrite (seq_elts_ok _ _ _ H).
  destruct (append_step _ _ _ TVec H) as [[-> _]| ->]; try (split; discriminate); try discriminate; now rewrite IH.
Qed.
Lemma append_mixed t xs kls : Forall2 of_kind xs kls -> t <> TSecret /\ t <> TOther ->
  (t = TStr -> ~ In KPacket (map fst kls)) ->
  exists t', append_loop t xs = Some (t', concat (map snd kls)) /\
    (t' = TVec \/ (t' = t /\ Forall (fun kl => ktype (fst kl) = t) kls)).
Proof.
  intros H Ht. induction H as [|x [k l] xs kls H F IH]; intro Hs.
  - exists t. split; [reflexivity|]. right. now split.
  - cbn [append_loop map concat snd fst] in *. rewrite (seq_elts_ok _ _ _ H).
    destruct (append_step _ _ _ t H Ht) as [[-> K]| ->].
    + intros E K. apply (Hs E). left. exact K.
    + destruct IH as (t' & -> & Q).
      { intros E K'. apply (Hs E). now right. }
      exists t'. split; [reflexivity|]. destruct Q as [Q|[Q1 Q2]]; [now left|]. right. split; [exact Q1|].
      now constructor.
    + exists TVec. split; [|now left]. now rewrite (append_vec _ _ F).
Qed.
Lemma concat_elts k xs ls : Forall2 (is_seq k) xs ls -> Forall (elt_ok k) (concat ls).
Proof.
  induction 1 as [|x l xs ls H F IH]; [constructor|]. cbn. apply Forall_app. split; [|exact IH].
  eapply is_seq_elts; eauto.
Qed.
Lemma append_ok k x xs ls : Forall2 (is_seq k) (x :: xs) ls ->
  exists r, kno_append (x :: xs) = SOk r /\ is_seq (made k) r (concat ls).
Proof.
  intro H. unfold kno_append.
  assert (T : match x with LNil => TPair | _ => stypeof x end = ktype k).
  { inversion H; subst. assert (D : x = LNil \/ x <> LNil) by (destruct x; auto; right; discriminate).
    destruct D as [->|D]; [now inversion H2|]. rewrite <- (stypeof_ok _ _ _ H2 D). destruct x; try reflexivity.
    now elim D. }
  rewrite (append_same k _ _ _ H T), T. apply makeseq_ok. eapply concat_elts; eauto.
Qed.
Lemma kind_type k1 kls : Forall (fun kl : kind * list lv => ktype (fst kl) = ktype k1) kls ->
  Forall2 of_kind [] [] -> forall xs, Forall2 of_kind xs kls -> Forall (elt_ok k1) (concat (map snd kls)).
Proof.
  intros H _. induction H as [|[k l] kls K H IH]; intros xs F; [constructor|].
  inversion F as [|x kl xs' kls' F1 F2]; subst. cbn. apply Forall_app. split; [|eauto].
  unfold of_kind in F1. cbn [fst snd] in *. assert (E := is_seq_elts _ _ _ F1).
  destruct k, k1; try discriminate; try exact E; (eapply Forall_impl; [|exact E]; now cbn).
Qed.
Lemma append_general x xs k1 l1 kls : Forall2 of_kind (x :: xs) ((k1, l1) :: kls) ->
  (k1 = KStr -> ~ In KPacket (map fst kls)) ->
  exists r, kno_append (x :: xs) = SOk r /\
    (is_seq (made k1) r (l1 ++ concat (map snd kls)) \/ is_seq KVec r (l1 ++ concat (map snd kls))).
Proof.
  intros H Hs. unfold kno_append.
  assert (T : match x with LNil => TPair | _ => stypeof x end = ktype k1).
  { inversion H as [|? ? ? ? H2 ?]; subst. unfold of_kind in H2. cbn [fst snd] in H2.
    assert (D : x = LNil \/ x <> LNil) by (destruct x; auto; right; discriminate).
    destruct D as [->|D]; [now inversion H2|]. rewrite <- (stypeof_ok _ _ _ H2 D). destruct x; try reflexivity.
    now elim D. }
  rewrite T. destruct (append_mixed (ktype k1) _ _ H) as (t' & E & Q).
  - now destruct k1.
  - intros K [K'|K']; [cbn in K'; now subst|]. apply Hs; [|exact K']. now destruct k1.
  - rewrite E. change (l1 ++ concat (map snd kls)) with (concat (map snd ((k1, l1) :: kls))).
    destruct Q as [->|[-> Q]].
    + eexists. split; [reflexivity|]. right. constructor.
    + destruct (makeseq_ok k1 (concat (map snd ((k1, l1) :: kls)))) as (r & R1 & R2).
      { eapply kind_type; [exact Q|constructor|exact H]. }
      eauto.
Qed.

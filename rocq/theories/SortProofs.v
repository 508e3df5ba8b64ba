(** * Correctness of the quicksort. *)
From Coq Require Import Lia Permutation Sorting.Sorted.
From Verif Require Import SortModel.

Arguments get {A} v i : simpl never.
Arguments swap {A} v i j : simpl never.

Section Arrays.
Context {A : Type}.
Implicit Types v : list A.

Lemma get_ex v i : i < length v -> exists x, get v i = Some x.
Proof.
  intros H. unfold get. destruct (nth_error v i) eqn:E; eauto.
  apply nth_error_None in E. lia.
Qed.
Lemma set_ex v : forall i x, i < length v -> exists v', set v i x = Some v'.
Proof.
  induction v as [|a v IH]; intros [|i] x H; simpl in *; try lia; eauto.
  destruct (IH i x) as (v' & ->); [lia|]. eauto.
Qed.
Lemma set_len v : forall i x v', set v i x = Some v' -> length v' = length v.
Proof.
  induction v as [|a v IH]; intros [|i] x v' H; simpl in *; try discriminate.
  - injection H as <-. reflexivity.
  - destruct (set v i x) eqn:E; [|discriminate]. injection H as <-. simpl.
    f_equal. eauto.
Qed.
Lemma set_get v : forall i x v' k, set v i x = Some v' ->
  get v' k = if Nat.eqb k i then Some x else get v k.
Proof.
  unfold get.
  induction v as [|a v IH]; intros [|i] x v' k H; simpl in *; try discriminate.
  - injection H as <-. destruct k; reflexivity.
  - destruct (set v i x) eqn:E; [|discriminate]. injection H as <-.
    destruct k as [|k]; [reflexivity|]. simpl. eauto.
Qed.
Lemma swap_ex v i j : i < length v -> j < length v -> exists v', swap v i j = Some v'.
Proof.
  intros Hi Hj. unfold swap.
  destruct (get_ex v i Hi) as (x & ->). destruct (get_ex v j Hj) as (y & ->).
  destruct (set_ex v i y Hi) as (v1 & E). rewrite E.
  apply set_ex. rewrite (set_len _ _ _ _ E). exact Hj.
Qed.
Lemma swap_len v i j v' : swap v i j = Some v' -> length v' = length v.
Proof.
  unfold swap. intros H.
  destruct (get v i) as [x|]; [|discriminate]. destruct (get v j) as [y|]; [|discriminate].
  destruct (set v i y) as [v1|] eqn:E; [|discriminate].
  rewrite (set_len _ _ _ _ H). eapply set_len; eauto.
Qed.
Lemma swap_get v i j v' k : swap v i j = Some v' ->
  get v' k = if Nat.eqb k j then get v i else if Nat.eqb k i then get v j else get v k.
Proof.
  unfold swap. intros H.
  destruct (get v i) as [x|] eqn:Ex; [|discriminate].
  destruct (get v j) as [y|] eqn:Ey; [|discriminate].
  destruct (set v i y) as [v1|] eqn:E; [|discriminate].
  rewrite (set_get _ _ _ _ _ H), (set_get _ _ _ _ _ E).
  destruct (Nat.eqb k j), (Nat.eqb k i); congruence.
Qed.
Lemma swap_perm v i j v' : swap v i j = Some v' -> Permutation v v'.
Proof.
  intros H.
  assert (Hi : i < length v).
  { unfold swap in H. destruct (get v i) eqn:E; [|discriminate].
    apply nth_error_Some. unfold get in E. congruence. }
  assert (Hj : j < length v).
  { unfold swap in H. destruct (get v i); [|discriminate]. destruct (get v j) eqn:E; [|discriminate].
    apply nth_error_Some. unfold get in E. congruence. }
  apply Permutation_nth_error. split; [symmetry; eapply swap_len; eauto|].
  exists (fun k => if Nat.eqb k j then i else if Nat.eqb k i then j else k). split.
  - intros a b. repeat (match goal with |- context[Nat.eqb ?x ?y] => destruct (Nat.eqb_spec x y) end); lia.
  - intros k. change (get v' k = get v (if Nat.eqb k j then i else if Nat.eqb k i then j else k)).
    rewrite (swap_get _ _ _ _ _ H). destruct (Nat.eqb k j), (Nat.eqb k i); reflexivity.
Qed.
End Arrays.

Section Correct.
Context {A : Type}.
Variable cmp : A -> A -> option comparison.
(** The comparison on the elements at hand: [c], a total preorder. *)
Variable ok : A -> Prop.
Variable c : A -> A -> comparison.
Hypothesis cmp_c : forall x y, ok x -> ok y -> cmp x y = Some (c x y).
Hypothesis c_opp : forall x y, ok x -> ok y -> c y x = CompOpp (c x y).
Hypothesis c_trans : forall x y z, ok x -> ok y -> ok z ->
  c x y <> Gt -> c y z <> Gt -> c x z <> Gt.
Definition le (x y : A) : Prop := c x y <> Gt.
Implicit Types v : list A.

Lemma c_refl x : ok x -> c x x = Eq.
Proof. intros H. specialize (c_opp x x H H). destruct (c x x); simpl in *; congruence. Qed.
Lemma le_total x y : ok x -> ok y -> le x y \/ le y x.
Proof.
  intros Hx Hy. unfold le. rewrite (c_opp x y Hx Hy).
  destruct (c x y); simpl; [left|left|right]; congruence.
Qed.

Definition all_get (v : list A) (lo hi : nat) (P : A -> Prop) : Prop :=
  forall k x, lo <= k < hi -> get v k = Some x -> P x.

Lemma get_ok v k x : Forall ok v -> get v k = Some x -> ok x.
Proof. intros H E. rewrite Forall_forall in H. apply H. eapply nth_error_In. exact E. Qed.

Lemma scan_down_spec v p i : Forall ok v -> get v 0 = Some p ->
  (forall x, get v i = Some x -> le x p) ->
  forall j, i < j <= length v ->
  exists j' x, scan_down cmp v j = Some j' /\ i <= j' < j /\ get v j' = Some x /\ le x p /\
            all_get v (S j') j (fun x => le p x).
Proof.
  intros Hv Hp Hi. induction j as [|j IH]; intros Hj; [lia|]. simpl.
  destruct (get_ex v j) as (x & Ex); [lia|]. rewrite Ex, Hp.
  pose proof (get_ok _ _ _ Hv Ex) as Hox. pose proof (get_ok _ _ _ Hv Hp) as Hop.
  rewrite cmp_c by assumption.
  assert (Hdone : c x p <> Gt -> exists j' x0, Some j = Some j' /\ i <= j' < S j /\ get v j' = Some x0 /\
     le x0 p /\ all_get v (S j') (S j) (fun x => le p x)).
  { intros Hc. exists j, x. repeat split; try lia; auto. intros k y Hk; lia. }
  destruct (c x p) eqn:E; [apply Hdone; congruence | apply Hdone; congruence|].
  assert (i <> j). { intros ->. specialize (Hi _ Ex). unfold le in Hi. congruence. }
  destruct IH as (j' & y & H1 & H2 & H3 & H4 & H5); [lia|].
  exists j', y. repeat split; try lia; auto.
  intros k z Hk Hz. destruct (Nat.eq_dec k j) as [->|].
  - assert (z = x) by congruence. subst z. unfold le. rewrite (c_opp x p) by assumption. rewrite E. discriminate.
  - apply (H5 k z); auto. lia.
Qed.

Lemma scan_up_spec v p : Forall ok v -> get v 0 = Some p ->
  forall fuel i j, j <= length v -> j - i < fuel -> 
  exists i', scan_up cmp fuel v i j = Some i' /\ i < i' /\ (i < j -> i' <= j) /\
    all_get v (S i) i' (fun x => le x p) /\
    (i' < j -> exists x, get v i' = Some x /\ le p x).
Proof.
  intros Hv Hp. induction fuel as [|f IH]; intros i j Hj Hf; [lia|].
  cbn -[Nat.ltb]. destruct (Nat.ltb_spec (S i) j).
  - destruct (get_ex v (S i)) as (x & Ex); [lia|]. rewrite Ex, Hp.
    pose proof (get_ok _ _ _ Hv Ex) as Hox. pose proof (get_ok _ _ _ Hv Hp) as Hop.
    rewrite cmp_c by assumption.
    destruct (c x p) eqn:E.
    1,3: exists (S i); repeat split; try lia;
      [intros k y Hk; lia | intros _; exists x; split; auto; unfold le; rewrite (c_opp x p) by assumption; rewrite E; discriminate].
    destruct (IH (S i) j) as (i' & H1 & H2 & H3 & H4 & H5); [lia|lia|].
    exists i'. repeat split; try lia; auto.
    intros k y Hk Hy. destruct (Nat.eq_dec k (S i)) as [->|].
    + assert (y = x) by congruence. subst. unfold le. congruence.
    + apply (H4 k y); auto. lia.
  - exists (S i). repeat split; try lia. intros k y Hk; lia.
Qed.

Lemma partition_spec p : forall fuel v i j,
  Forall ok v -> get v 0 = Some p ->
  i < j <= length v -> j - i < fuel ->
  (forall x, get v i = Some x -> le x p) ->
  all_get v 1 (S i) (fun x => le x p) ->
  all_get v j (length v) (fun x => le p x) ->
  exists v' j', partition cmp fuel v i j = Some (v', j') /\
    Permutation v v' /\ get v' 0 = Some p /\ j' < length v /\
    (forall x, get v' j' = Some x -> le x p) /\
    all_get v' 1 j' (fun x => le x p) /\
    all_get v' (S j') (length v) (fun x => le p x).
Proof.
  induction fuel as [|f IH]; intros v i j Hv Hp Hij Hf Hi Hlo Hhi; [lia|].
  cbn -[scan_up].
  destruct (scan_down_spec v p i Hv Hp Hi j Hij) as (j' & xj & -> & Hj1 & Hj2 & Hj3 & Hj4).
  assert (Hhi' : all_get v (S j') (length v) (fun x => le p x)).
  { intros k x Hk Hx. destruct (Nat.lt_ge_cases k j); [apply (Hj4 k x)|apply (Hhi k x)]; auto; lia. }
  destruct (scan_up_spec v p Hv Hp (S (length v)) i j') as (i' & E & Hi1 & Hi2 & Hi3 & Hi4); [lia|lia|].
  rewrite E.
  assert (Hlo' : all_get v 1 i' (fun x => le x p)).
  { intros k x Hk Hx. destruct (Nat.lt_ge_cases k (S i)); [apply (Hlo k x)|apply (Hi3 k x)]; auto; lia. }
  destruct (Nat.leb_spec j' i').
  - exists v, j'. repeat split; auto; try lia.
    + intros x Hx. assert (x = xj) by congruence. subst; auto.
    + intros k x Hk Hx. apply (Hlo' k x); auto; lia.
  - destruct Hi4 as (xi & Hxi & Hxi'); [lia|].
    destruct (swap_ex v i' j') as (v1 & E1); [lia|lia|]. rewrite E1.
    pose proof (swap_len _ _ _ _ E1) as Hlen.
    pose proof (swap_perm _ _ _ _ E1) as Hperm.
    assert (Hg : forall k, get v1 k = if Nat.eqb k j' then get v i' else if Nat.eqb k i' then get v j' else get v k)
      by (intros; eapply swap_get; eauto).
    destruct (IH v1 i' j') as (v' & jj & R1 & R2 & R3 & R4 & R5 & R6 & R7).
    + eapply Permutation_Forall; eauto.
    + rewrite Hg. destruct (Nat.eqb_spec 0 j'); [lia|]. destruct (Nat.eqb_spec 0 i'); [lia|]. exact Hp.
    + lia.
    + lia.
    + intros x. rewrite Hg. destruct (Nat.eqb_spec i' j'); [lia|]. rewrite Nat.eqb_refl. intros Hx.
      assert (x = xj) by congruence. subst; auto.
    + intros k x Hk. rewrite Hg. destruct (Nat.eqb_spec k j'); [lia|].
      destruct (Nat.eqb_spec k i').
      * intros Hx. assert (x = xj) by congruence. subst; auto.
      * intros Hx. apply (Hlo' k x); auto; lia.
    + intros k x Hk. rewrite Hg. destruct (Nat.eqb_spec k j').
      * intros Hx. assert (x = xi) by congruence. subst; auto.
      * destruct (Nat.eqb_spec k i'); [lia|]. intros Hx. apply (Hhi' k x); auto; lia.
    + exists v', jj. rewrite Hlen in *. repeat split; auto. etransitivity; eauto.
Qed.

Lemma all_get_firstn v j (P : A -> Prop) : all_get v 0 j P -> Forall P (firstn j v).
Proof.
  intros H. apply Forall_forall. intros x Hx. apply In_nth_error in Hx. destruct Hx as (k & Hk).
  assert (k < length (firstn j v)) by (apply nth_error_Some; congruence).
  rewrite firstn_length in *.
  apply (H k x); [lia|]. unfold get.
  rewrite <- (firstn_skipn j v), nth_error_app1; [exact Hk|]. rewrite firstn_length; lia.
Qed.
Lemma all_get_skipn v j (P : A -> Prop) : all_get v j (length v) P -> Forall P (skipn j v).
Proof.
  intros H. apply Forall_forall. intros x Hx. apply In_nth_error in Hx. destruct Hx as (k & Hk).
  assert (k < length (skipn j v)) by (apply nth_error_Some; congruence).
  rewrite skipn_length in *.
  apply (H (j + k) x); [lia|]. unfold get.
  rewrite <- (firstn_skipn j v), nth_error_app2; rewrite firstn_length; [|lia].
  replace (j + k - Nat.min j (length v)) with k by lia. exact Hk.
Qed.
Lemma split_at v j p : get v j = Some p -> v = firstn j v ++ p :: skipn (S j) v.
Proof.
  unfold get. revert j. induction v as [|a v IH]; intros [|j] H; try discriminate.
  - cbn in H |- *. congruence.
  - change (a :: v = a :: (firstn j v ++ p :: skipn (S j) v)). f_equal. apply IH, H.
Qed.

Lemma sortedp_spec v : Forall ok v -> exists b, sortedp cmp v = Some b /\
  (b = true -> StronglySorted le v).
Proof.
  induction v as [|x v IH]; intros Hv.
  - exists true. split; [reflexivity|]. constructor.
  - destruct v as [|y v].
    + exists true. split; [reflexivity|]. repeat constructor.
    + inversion Hv as [|? ? Hx Hv']; subst. inversion Hv' as [|? ? Hy Hv'']; subst.
      destruct (IH Hv') as (b & E & Hb).
      cbn [sortedp]. rewrite cmp_c by assumption. destruct (c x y) eqn:Ec.
      1,3: exists false; split; [reflexivity|discriminate].
      exists b. split; [exact E|]. intros ->. specialize (Hb eq_refl).
      constructor; [exact Hb|]. inversion Hb as [|? ? Hs Hf]; subst.
      constructor; [unfold le; congruence|].
      rewrite Forall_forall in *. intros z Hz. specialize (Hf z Hz).
      unfold le in *. eapply (c_trans x y z); auto. congruence.
Qed.

Lemma StronglySorted_app v w : StronglySorted le v -> StronglySorted le w ->
  (forall x y, In x v -> In y w -> le x y) -> StronglySorted le (v ++ w).
Proof.
  induction v as [|a v IH]; intros H1 H2 H3; simpl; [exact H2|].
  inversion H1; subst. constructor.
  - apply IH; auto. intros; apply H3; simpl; auto.
  - apply Forall_app. split; auto. apply Forall_forall. intros y Hy. apply H3; simpl; auto.
Qed.

Lemma qsort_spec check : forall fuel entry v, length v < fuel -> Forall ok v ->
  exists v', qsort cmp check fuel entry v = Some v' /\ Permutation v v' /\ StronglySorted le v'.
Proof.
  induction fuel as [|f IH]; intros entry v Hf Hv; [lia|].
  cbn -[partition Nat.div Nat.leb Nat.ltb skipn].
  assert (Hal : exists b, (if check && entry then sortedp cmp v else Some false) = Some b /\
                          (b = true -> StronglySorted le v)).
  { destruct (check && entry); [apply sortedp_spec; auto | exists false; split; [auto|discriminate]]. }
  destruct Hal as (b & -> & Hb). destruct b; [exists v; auto|]. clear Hb.
  destruct (Nat.leb_spec (length v) 1) as [Hn|Hn].
  { exists v. repeat split; auto. destruct v as [|a [|]]; simpl in Hn; try lia; repeat constructor. }
  assert (Hdiv : length v / 2 < length v) by (apply Nat.div_lt; lia).
  destruct (swap_ex v 0 (length v / 2)) as (v1 & E1); [lia|lia|]. rewrite E1.
  pose proof (swap_len _ _ _ _ E1) as Hl1. pose proof (swap_perm _ _ _ _ E1) as Hp1.
  assert (Hv1 : Forall ok v1) by (eapply Permutation_Forall; eauto).
  destruct (get_ex v1 0) as (p & Hp); [lia|].
  assert (Hop : ok p) by (eapply get_ok; eauto).
  destruct (partition_spec p (S (length v)) v1 0 (length v)) as (v2 & j & -> & P1 & P2 & P3 & P4 & P5 & P6);
    auto; try lia.
  { intros x Hx. assert (x = p) by congruence. subst. unfold le. rewrite c_refl by auto. discriminate. }
  { intros k x Hk; lia. }
  { rewrite Hl1. intros k x Hk; lia. }
  assert (Hl2 : length v2 = length v) by (rewrite <- Hl1; symmetry; apply Permutation_length; auto).
  destruct (swap_ex v2 j 0) as (v3 & E3); [lia|lia|]. rewrite E3.
  pose proof (swap_len _ _ _ _ E3) as Hl3. pose proof (swap_perm _ _ _ _ E3) as Hp3.
  assert (Hg : forall k, get v3 k = if Nat.eqb k 0 then get v2 j else if Nat.eqb k j then get v2 0 else get v2 k)
    by (intros; eapply swap_get; eauto).
  assert (Hgj : get v3 j = Some p).
  { rewrite Hg. destruct (Nat.eqb_spec j 0) as [->|]; [auto|]. rewrite Nat.eqb_refl. auto. }
  rewrite Hgj.
  assert (Hv3 : Forall ok v3) by (eapply Permutation_Forall; [|exact Hv1]; etransitivity; eauto).
  assert (Hlo : Forall (fun x => le x p) (firstn j v3)).
  { apply all_get_firstn. intros k x Hk Hx. rewrite Hg in Hx.
    destruct (Nat.eqb_spec k 0) as [->|]; [apply P4; auto|].
    destruct (Nat.eqb_spec k j); [lia|]. apply (P5 k x); auto; lia. }
  assert (Hhi : Forall (fun x => le p x) (skipn (S j) v3)).
  { apply all_get_skipn. intros k x Hk Hx. rewrite Hg in Hx.
    destruct (Nat.eqb_spec k 0); [lia|].
    destruct (Nat.eqb_spec k j); [lia|]. apply (P6 k x); auto; lia. }
  pose proof (split_at v3 j p Hgj) as Hsp.
  assert (Hokl : Forall ok (firstn j v3) /\ Forall ok (skipn (S j) v3)).
  { rewrite Hsp in Hv3. apply Forall_app in Hv3. destruct Hv3 as [? Hr].
    inversion Hr; subst; auto. }
  destruct Hokl as [Hokl Hokr].
  assert (Hfin : forall l r, Permutation (firstn j v3) l -> StronglySorted le l ->
     Permutation (skipn (S j) v3) r -> StronglySorted le r ->
     Permutation v (l ++ p :: r) /\ StronglySorted le (l ++ p :: r)).
  { intros l r Pl Sl Pr Sr.
    assert (Hlo' : Forall (fun x => le x p) l) by (eapply Permutation_Forall; eauto).
    assert (Hhi' : Forall (fun x => le p x) r) by (eapply Permutation_Forall; eauto).
    assert (Hokl' : Forall ok l) by (eapply Permutation_Forall; eauto).
    assert (Hokr' : Forall ok r) by (eapply Permutation_Forall; eauto).
    split.
    - rewrite Hp1, P1, Hp3, Hsp at 1. apply Permutation_app; auto.
    - apply StronglySorted_app; auto; [constructor; auto|].
      rewrite Forall_forall in *. intros x y Hx [<-|Hy]; auto.
      unfold le in *. apply (c_trans x p y); auto. }
  assert (Hlen1 : length (firstn j v3) < f) by (rewrite firstn_length; lia).
  assert (Hlen2 : length (skipn (S j) v3) < f) by (rewrite skipn_length; lia).
  destruct (Nat.ltb_spec j (length v - S j)).
  - destruct (IH true _ Hlen1 Hokl) as (l & -> & Pl & Sl).
    destruct (IH false _ Hlen2 Hokr) as (r & -> & Pr & Sr).
    exists (l ++ p :: r). split; auto.
  - destruct (IH true _ Hlen2 Hokr) as (r & -> & Pr & Sr).
    destruct (IH false _ Hlen1 Hokl) as (l & -> & Pl & Sl).
    exists (l ++ p :: r). split; auto.
Qed.

Theorem sort_vec_spec check v : Forall ok v ->
  exists v', sort_vec cmp check v = Some v' /\ Permutation v v' /\ StronglySorted le v'.
Proof. intros H. apply qsort_spec; auto. Qed.
End Correct.

(** * C37: sorting. *)
From Coq Require Import Lia Permutation Sorting.Sorted List.
From Verif Require Import ValueModel ValueProofs SortModel SortProofs ChoicesModel ChoicesProofs.
Import ListNotations.

(** lispval_sort (compare.c:195-215) with any comparison that is total, antisymmetric
    and transitive on the elements: no access outside of the vector, and the result is
    an ordered permutation. *)
Theorem C37_sort : forall (A : Type) (c : A -> A -> comparison) (v : list A),
  (forall x y, In x v -> In y v -> c y x = CompOpp (c x y)) ->
  (forall x y z, In x v -> In y v -> In z v -> c x y <> Gt -> c y z <> Gt -> c x z <> Gt) ->
  exists v', sort_vec (fun x y => Some (c x y)) false v = Some v' /\
    Permutation v v' /\ StronglySorted (fun x y => c x y <> Gt) v'.
Proof.
  intros A c v H1 H2.
  apply (sort_vec_spec (fun x y => Some (c x y)) (fun x => In x v) c); auto.
  apply Forall_forall. auto.
Qed.

(** Instance: sorting values with KNO_COMPARE_QUICK. *)
Theorem C37_lispval_sort_partial : forall v, Forall (fun x => vok x = true) v ->
  exists v', sort_vec (fun x y => Some (qcompare x y)) false v = Some v' /\
    Permutation v v' /\ StronglySorted (fun x y => qcompare x y <> Gt) v'.
Proof.
  intros v Hv. rewrite Forall_forall in Hv. apply C37_sort.
  - intros x y Hx Hy. apply qcompare_opp; auto.
  - intros x y z Hx Hy Hz Hxy Hyz.
    destruct (qcompare x y) eqn:E1; [| |congruence].
    + apply qcompare_eq in E1; auto. now subst.
    + destruct (qcompare y z) eqn:E2; [| |congruence].
      * apply qcompare_eq in E2; auto. subst. congruence.
      * now rewrite (qcompare_trans x y z) by auto.
Qed.

(** atomic_sort and cons_sort (choices.c:110-163), including the early exit of
    atomic_sort on sorted vectors. *)
Theorem C37_choice_sort_partial : forall atomic v,
  Forall (fun x => vok x = true /\ plain x = true) v ->
  (atomic = true -> forall x, In x v -> atomicp x = true) ->
  exists v', choice_sort atomic v = Some v' /\
    Permutation v v' /\ StronglySorted (fun x y => cons_compare x y <> Gt) v'.
Proof.
  intros a v Hv Ha. apply choice_sort_spec; auto.
  apply Forall_forall. intros x Hx E. auto.
Qed.

(** Equal inputs up to order give the same result when distinct values compare different. *)
Theorem C37_sort_deterministic : forall v w, Forall (fun x => vok x = true) v -> Permutation v w ->
  sort_vec (fun x y => Some (qcompare x y)) false v = sort_vec (fun x y => Some (qcompare x y)) false w.
Proof.
  intros v w Hv P.
  assert (Hw : Forall (fun x => vok x = true) w) by (rewrite Forall_forall in *; intros x Hx; apply Hv;
    eapply Permutation_in; [apply Permutation_sym|]; eauto).
  destruct (C37_lispval_sort_partial v Hv) as (v' & -> & P1 & S1).
  destruct (C37_lispval_sort_partial w Hw) as (w' & -> & P2 & S2).
  assert (P' : Permutation v' w') by (rewrite <- P1, <- P2; exact P).
  assert (Hv' : Forall (fun x => vok x = true) v').
  { rewrite Forall_forall in *. intros x Hx. apply Hv. eapply Permutation_in; [apply Permutation_sym|]; eauto. }
  assert (Hw' : Forall (fun x => vok x = true) w').
  { rewrite Forall_forall in *. intros x Hx. apply Hw. eapply Permutation_in; [apply Permutation_sym|]; eauto. }
  f_equal. clear -S1 S2 P' Hv' Hw'. revert w' S2 P' Hw'.
  induction S1 as [|a l S IH F]; intros w' S2 P' Hw'.
  - apply Permutation_nil in P'. now subst.
  - destruct w' as [|b m]; [apply Permutation_sym, Permutation_nil_cons in P'; destruct P'|].
    inversion Hv' as [|? ? Ka Kl]; inversion Hw' as [|? ? Kb Km]; inversion S2 as [|? ? S2' F2]; subst.
    assert (a = b).
    { assert (Ia : In a (b :: m)) by (eapply Permutation_in; [exact P'|now left]).
      assert (Ib : In b (a :: l)) by (eapply Permutation_in; [apply Permutation_sym; exact P'|now left]).
      destruct Ia as [|Ia]; [congruence|]. destruct Ib as [|Ib]; [congruence|].
      rewrite Forall_forall in F, F2. specialize (F b Ib). specialize (F2 a Ia).
      rewrite (qcompare_opp a b) in F2 by auto. apply qcompare_eq; auto.
      destruct (qcompare a b); auto; simpl in *; congruence. }
    subst b. f_equal. apply IH; auto. eapply Permutation_cons_inv; eauto.
Qed.

Example C37_ex : sort_vec (fun x y => Some (qcompare x y)) false
   [VStr [98%N]; VAtom 9; VVec [VAtom 1]; VStr [97%N]; VAtom 5; VAtom 9] =
   Some [VAtom 5; VAtom 9; VAtom 9; VStr [97%N]; VStr [98%N]; VVec [VAtom 1]].
Proof. vm_compute. reflexivity. Qed.

Print Assumptions C37_sort.
Print Assumptions C37_lispval_sort_partial.
Print Assumptions C37_choice_sort_partial.
Print Assumptions C37_sort_deterministic.

(** Sorting: with any comparison that is an order on the elements there are, the result is a
    permutation in ascending order; for exact values without NUL bytes in strings it is the one
    ascending list of them, whatever order they come in. *)
Theorem C86_sorting :
  (forall (A : Type) (c : A -> A -> comparison) (v : list A),
    (forall x y, In x v -> In y v -> c y x = CompOpp (c x y)) ->
    (forall x y z, In x v -> In y v -> In z v -> c x y <> Gt -> c y z <> Gt -> c x z <> Gt) ->
    exists v', sort_vec (fun x y => Some (c x y)) false v = Some v' /\
      Permutation v v' /\ StronglySorted (fun x y => c x y <> Gt) v') /\
  (forall v w, Forall (fun x => vok x = true) v -> Permutation v w ->
    exists v', sort_vec (fun x y => Some (qcompare x y)) false v = Some v' /\
      sort_vec (fun x y => Some (qcompare x y)) false w = Some v' /\
      Permutation v v' /\ StronglySorted (fun x y => qcompare x y <> Gt) v').
Proof.
  split; [exact C37_sort|]. intros v w V P. destruct (C37_lispval_sort_partial v V) as (v' & E & Q & S).
  exists v'. split; [exact E|]. split; [rewrite <- (C37_sort_deterministic v w V P); exact E|]. split; [exact Q|exact S].
Qed.
Example C86_sorting_case :
  let v := [VStr [98%N]; VAtom 9; VVec [VAtom 1]; VStr [97%N]; VAtom 5; VAtom 9] in
  Forall (fun x => vok x = true) v /\ sort_vec (fun x y => Some (qcompare x y)) false (rev v) =
   Some [VAtom 5; VAtom 9; VAtom 9; VStr [97%N]; VStr [98%N]; VVec [VAtom 1]].
Proof. split; [repeat constructor|]. vm_compute. reflexivity. Qed.
Print Assumptions C86_sorting.

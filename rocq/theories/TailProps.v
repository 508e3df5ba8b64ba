(** * Tail calls: properties *)

From Coq Require Import ZArith List Bool Arith Lia.
Import ListNotations.
From Verif Require Import TailModel TailSpec TailProofs TailProofs2 TailProofs3 TailProofs4.
Open Scope Z_scope.

(** ** A program to try things on *)

(** Primitives: 0 is 1-, 1 is zero?, 2 applies its first argument to its
    second and then goes on as 3, which adds one to the result, 4 is
    positive?. *)
Definition demo_prim (p : nat) (vs : list value) : pstep :=
  match p, vs with
  | 0%nat, [VInt z] => PDone (VInt (z - 1))
  | 1%nat, [VInt z] => PDone (if z =? 0 then VTrue else VFalse)
  | 2%nat, [f; v] => PCall f [v] 3
  | 3%nat, VInt z :: _ => PDone (VInt (z + 1))
  | 4%nat, [VInt z] => PDone (if 0 <? z then VTrue else VFalse)
  | _, _ => PFail
  end.

(** (lambda (self n) (if (zero? n) 17 (let ((m (1- n))) (self self m)))) *)
Definition down : expr :=
  ELam 2 0 false false
    [EIf (EApp (EQ (VPrim 1)) [EVar 1])
       (EQ (VInt 17))
       (Some (ELet [EApp (EQ (VPrim 0)) [EVar 1]] [EApp (EVar 1) [EVar 1; EVar 0]]))].

(** (begin (down down 3) (apply-and-add-one (lambda (x) (down down x)) 2)) *)
Definition demo : expr :=
  EBegin [EApp down [down; EQ (VInt 3)];
          EApp (EQ (VPrim 2)) [ELam 1 0 false false [EApp down [down; EVar 0]]; EQ (VInt 2)]].

(** ** C122 *)

(** Whatever the evaluator returns for an expression, with its reused
    frames, is what the expression means: a value it returns is the
    value direct evaluation gives, an error is an error there too.  It
    never hands KNO_TAIL to whoever asked for the value, it writes no
    arguments behind the end of a frame, and the frames below are as
    they were. *)
Theorem C122_result : forall prim tmax n e env f t o st',
  ev prim tmax None n e env (f :: t) false = Some (o, st') ->
  ((exists v, o = OVal v /\ gives prim e env (Ok v)) \/ (o = OErr /\ gives prim e env Fail)) /\
  exists f', st' = f' :: t /\ f_fn f' = f_fn f /\ f_args f' = f_args f /\ f_loop f' = f_loop f.
Proof.
  intros prim tmax n e env f t o st' H.
  apply (proj1 (sound prim tmax None n)) in H.
  destruct o as [v| | | |]; simpl in H.
  - destruct H as [Hk Hd]. split; [left; eauto|].
    apply keep_cons in Hk. destruct Hk as (f' & -> & _ & Hlp & _ & Hfn & Ha). exists f'. auto.
  - destruct H as [Hk Hd]. split; [right; eauto|].
    apply keep_cons in Hk. destruct Hk as (f' & -> & _ & Hlp & _ & Hfn & Ha). exists f'. auto.
  - destruct H as [Hf _]. discriminate.
  - contradiction.
  - congruence.
Qed.
Example C122_result_case : exists st',
  ev demo_prim 0 None 40 demo [] [fresh] false = Some (OVal (VInt 18), st').
Proof. eexists. vm_compute. reflexivity. Qed.
Print Assumptions C122_result.

(** Conversely, if the expression has a result then the evaluator
    arrives at it, from any frames and with any limit on how far up
    tail calls may go. *)
Theorem C122_reached : forall prim e env r,
  gives prim e env r -> forall tmax f t, exists n st',
    ev prim tmax None n e env (f :: t) false =
      Some (match r with Ok v => OVal v | Fail => OErr end, st').
Proof.
  intros prim e env r [n H] tmax f t.
  destruct (reach_arg prim tmax n (reach_all prim tmax n) e env r (f :: t) H) as (m & st' & E & _).
  exists m, st'. destruct r; exact E.
Qed.
Example C122_reached_case : gives demo_prim demo [] (Ok (VInt 18)).
Proof. exists 40%nat. vm_compute. reflexivity. Qed.
Print Assumptions C122_reached.

(** The limit kno_tail_max does not matter to results either. *)
Theorem C122_limit : forall prim t1 t2 n e env f t o st' g u,
  ev prim t1 None n e env (f :: t) false = Some (o, st') ->
  exists m st'', ev prim t2 None m e env (g :: u) false = Some (o, st'').
Proof.
  intros prim t1 t2 n e env f t o st' g u H.
  destruct (C122_result _ _ _ _ _ _ _ _ _ H) as [[(v & -> & Hg) | (-> & Hg)] _];
    destruct (C122_reached _ _ _ _ Hg t2 g u) as (m & st'' & E); exists m, st''; exact E.
Qed.
Example C122_limit_case : exists s1 s2,
  ev demo_prim 1 None 60 demo [] [fresh] false = Some (OVal (VInt 18), s1) /\
  ev demo_prim 2 None 60 demo [] [lamframe 5 VTrue [] true; fresh] false = Some (OVal (VInt 18), s2).
Proof. eexists _, _. split; vm_compute; reflexivity. Qed.
Print Assumptions C122_limit.

(** A call from C (kno_apply) gives what applying the lambda means,
    and leaves the frames alone, whatever they are. *)
Theorem C122_callback : forall prim tmax p vs st n o st',
  run prim tmax None n p vs st = Some (o, st') ->
  st' = st /\
  ((exists v, o = OVal v /\ exists m, drun prim m p vs = Some (Ok v)) \/
   (o = OErr /\ exists m, drun prim m p vs = Some Fail)).
Proof.
  intros prim tmax p vs st n o st' H.
  pose proof (sound prim tmax None n) as Hs.
  destruct Hs as (_ & _ & _ & _ & _ & _ & _ & _ & Hr).
  apply Hr in H. destruct H as [H Hn]. destruct o; simpl in H; try contradiction; try congruence.
  - destruct H as [-> Hd]. split; eauto.
  - destruct H as [-> Hd]. split; eauto.
Qed.
Example C122_callback_case :
  run demo_prim 0 None 40 2 [VClo 1 0 false false [EApp down [down; EVar 0]] []; VInt 2]
    [lamframe 5 VTrue [] true] = Some (OVal (VInt 18), [lamframe 5 VTrue [] true]).
Proof. vm_compute. reflexivity. Qed.
Print Assumptions C122_callback.

(** ** Tail calls are made where they can be *)

(** Calling a lambda from tail position, where some lambda frame up the
    chain of frames in tail position has room for its variables: the
    call returns at once, evaluating nothing and pushing nothing. *)
Theorem C122_no_push : forall prim lim n k l nt body env vs st1 f st2,
  Forall (fun g => f_bit g = true) st1 ->
  f_bit f = true -> f_lam f = true -> (k + l <= f_width f)%nat ->
  exists st', call prim 0 lim (S n) (VClo k l nt false body env) vs (st1 ++ f :: st2) true
                = Some (OTail, st') /\
              length st' = length (st1 ++ f :: st2).
Proof.
  intros prim lim n k l nt body env vs st1 f st2 Hall Hb Hl Hw.
  assert (Hf : exists i g, scan 0 (k + l) 0 (st1 ++ f :: st2) = Some i /\
                 nth_error (st1 ++ f :: st2) i = Some g /\ (k + l <= f_width g)%nat).
  { assert (Hs0 : forall sp, exists i g, scan 0 (k + l) sp (f :: st2) = Some i /\
                 nth_error (f :: st2) i = Some g /\ (k + l <= f_width g)%nat).
    { intros sp. simpl. rewrite Hb, Hl. simpl. apply Nat.leb_le in Hw. rewrite Hw.
      destruct (scan 0 (k + l) (S sp) st2) as [i|] eqn:E.
      - assert (Hg : forall st sp i, scan 0 (k + l) sp st = Some i ->
                  exists g, nth_error st i = Some g /\ (k + l <= f_width g)%nat).
        { clear. induction st as [|g t IH]; intros sp i H; simpl in H; [discriminate|].
          destruct (f_bit g); simpl in H; [|discriminate].
          destruct (f_lam g); simpl in H.
          - destruct (k + l <=? f_width g)%nat eqn:Hw.
            + apply Nat.leb_le in Hw.
              destruct (scan 0 (k + l) (S sp) t) eqn:E; injection H as <-; simpl; eauto.
            + destruct (scan 0 (k + l) sp t) eqn:E; simpl in H; [|discriminate].
              injection H as <-. simpl. eauto.
          - destruct (scan 0 (k + l) sp t) eqn:E; simpl in H; [|discriminate].
            injection H as <-. simpl. eauto. }
        destruct (Hg _ _ _ E) as (g & Hn & Hgw). exists (S i), g. auto.
      - exists 0%nat, f. apply Nat.leb_le in Hw. auto. }
    assert (Hs : forall sp, exists i g, scan 0 (k + l) sp (st1 ++ f :: st2) = Some i /\
                 nth_error (st1 ++ f :: st2) i = Some g /\ (k + l <= f_width g)%nat); [|apply Hs].
    induction st1 as [|g t IH]; intros sp; [apply Hs0|].
    inversion Hall as [|? ? Hgb Hall']; subst. simpl. rewrite Hgb. simpl.
    destruct (f_lam g); simpl.
    - destruct (k + l <=? f_width g)%nat.
      + destruct (IH Hall' (S sp)) as (i & h & -> & Hn & Hhw). exists (S i), h. auto.
      + destruct (IH Hall' sp) as (i & h & -> & Hn & Hhw). exists (S i), h. auto.
    - destruct (IH Hall' sp) as (i & h & -> & Hn & Hhw). exists (S i), h. auto. }
  destruct Hf as (i & g & Hs & Hn & Hgw).
  exists (put i (VClo k l nt false body env) vs (st1 ++ f :: st2)).
  split.
  - unfold call. simpl andb. cbn iota. rewrite Hs, Hn. apply Nat.leb_le in Hgw. rewrite Hgw. reflexivity.
  - clear. generalize (st1 ++ f :: st2) as st. intros st. revert i.
    induction st as [|g t IH]; intros [|i]; simpl; auto.
Qed.
Example C122_no_push_case :
  let f := lamframe 2 (VClo 2 0 false false [] []) [VTrue; VTrue] true in
  call demo_prim 0 (Some 0%nat) 1 (VClo 1 1 false false [] []) [VInt 5] [setbit true fresh; f; fresh] true
  = Some (OTail, [setbit true fresh; takeover (VClo 1 1 false false [] []) [VInt 5] f; fresh]).
Proof. reflexivity. Qed.
Print Assumptions C122_no_push.

(** ** C123 *)

Definition vdown : value :=
  match down with ELam k l nt pr b => VClo k l nt pr b [] | _ => VVoid end.

Lemma room_yes : forall d st, (length st < d)%nat -> room (Some d) st = true.
Proof. intros d st H. apply Nat.ltb_lt. exact H. Qed.
Lemma room_no : forall d st, (d <= length st)%nat -> room (Some d) st = false.
Proof. intros d st H. apply Nat.ltb_ge. exact H. Qed.

(** (zero? n), (1- n), (positive? n) *)
Lemma demo_prim1 : forall d p i env z v st tail, nth_error env i = Some (VInt z) ->
  demo_prim p [VInt z] = PDone v -> (length st < d)%nat ->
  Ev demo_prim 0 (Some d) (EApp (EQ (VPrim p)) [EVar i]) env st tail (OVal v) (settop tail st).
Proof.
  intros d p i env z v st tail Hi Hp Hd.
  apply (s_pair demo_prim 0 (Some d) _ _ _ _ _ (settop tail (fresh :: settop tail st)));
    [exact I | apply room_yes; exact Hd |].
  apply s_app_prim with (vs := [VInt z]); [|exact Hp].
  eapply s_args; [apply s_var; [exact Hi | reflexivity] | reflexivity | apply s_args_nil].
Qed.

Lemma down_loop : forall z, 0 <= z -> forall b t d, topbit t = false -> (length t + 5 <= d)%nat ->
  exists st', Loop demo_prim 0 (Some d) (lamframe 2 vdown [vdown; VInt z] b :: t) (OVal (VInt 17)) st'.
Proof.
  intros z Hz. pattern z. apply natlike_ind; [| |exact Hz]; clear z Hz.
  - intros b t d Ht Hd. eexists.
    eapply s_loop; [reflexivity | | discriminate].
    apply s_body1. eapply s_pair; [exact I | apply room_yes; simpl; lia |].
    eapply s_if with (v := VTrue); [| reflexivity | reflexivity | apply s_const].
    apply demo_prim1 with (z := 0); [reflexivity | reflexivity | simpl; lia].
  - intros z Hz IH b t d Ht Hd. destruct (IH true t d Ht Hd) as [st' HL].
    exists st'.
    eapply s_loop_again with
      (f1 := takeover vdown [vdown; VInt z] (lamframe 2 vdown [vdown; VInt (Z.succ z)] b)) (t1 := t); [reflexivity | | reflexivity | exact HL].
    apply s_body1.
    eapply (s_pair demo_prim 0 (Some d) _ _ _ _ _ (_ :: _ :: t)); [exact I | apply room_yes; simpl; lia |].
    eapply s_if with (v := VFalse); [| reflexivity | reflexivity |].
    { apply demo_prim1 with (z := Z.succ z); [reflexivity | | simpl; lia].
      unfold demo_prim. replace (Z.succ z =? 0) with false; [reflexivity|].
      symmetry. apply Z.eqb_neq. lia. }
    eapply (s_pair demo_prim 0 (Some d) _ _ _ _ _ (_ :: _ :: _ :: t)); [exact I | apply room_yes; simpl; lia |].
    eapply (s_let1 demo_prim 0 (Some d) _ _ _ _ _ (VInt z) _ _ (_ :: _ :: _ :: _ :: t));
      [| reflexivity |].
    { apply demo_prim1 with (z := Z.succ z); [reflexivity | | simpl; lia].
      unfold demo_prim. do 3 f_equal. lia. }
    apply s_body1.
    eapply (s_pair demo_prim 0 (Some d) _ _ _ _ _ (_ :: _ :: _ :: _ :: _ :: t)); [exact I | apply room_yes; simpl; lia |].
    eapply s_app_clo with (vs := [vdown; VInt z]).
    + apply s_var; reflexivity.
    + reflexivity.
    + eapply s_args; [apply s_var; reflexivity | reflexivity |].
      eapply s_args; [apply s_var; reflexivity | reflexivity | apply s_args_nil].
    + assert (Hs : forall sp, scan 0 2 sp t = None).
      { intros sp. destruct t as [|g t]; [reflexivity|]. simpl in Ht |- *. rewrite Ht. reflexivity. }
      exists 1%nat. simpl. rewrite Hs. simpl. reflexivity.
Qed.

(** A lambda which calls itself in tail position as often as it is told
    to, below IF and LET, takes seven frames however often that is. *)
Theorem C123_loop_partial : forall z, 0 <= z -> exists n st',
  ev demo_prim 0 (Some 7%nat) n (EApp (EQ vdown) [EQ vdown; EQ (VInt z)]) [] [fresh] false
    = Some (OVal (VInt 17), st').
Proof.
  intros z Hz.
  assert (H : exists st', Ev demo_prim 0 (Some 7%nat) (EApp (EQ vdown) [EQ vdown; EQ (VInt z)]) []
                [fresh] false (OVal (VInt 17)) st').
  { destruct (down_loop z Hz false [fresh; fresh] 7 eq_refl ltac:(simpl; lia)) as [st' HL].
    eexists. eapply s_pair; [exact I | reflexivity |].
    eapply s_app_clo with (vs := [vdown; VInt z]).
    - apply s_const.
    - reflexivity.
    - eapply s_args; [apply s_const | reflexivity |].
      eapply s_args; [apply s_const | reflexivity | apply s_args_nil].
    - apply s_call_push; [reflexivity | reflexivity | exact HL]. }
  destruct H as [st' [n E]]. exists n, st'. exact E.
Qed.
Example C123_loop_case : exists st',
  ev demo_prim 0 (Some 7%nat) 80 (EApp (EQ vdown) [EQ vdown; EQ (VInt 9)]) [] [fresh] false
    = Some (OVal (VInt 17), st') /\
  ev demo_prim 0 (Some 6%nat) 80 (EApp (EQ vdown) [EQ vdown; EQ (VInt 9)]) [] [fresh] false
    <> Some (OVal (VInt 17), st').
Proof. eexists. split; [vm_compute; reflexivity | vm_compute; discriminate]. Qed.
Print Assumptions C123_loop_partial.

(** The call (self self (1- n)) *)
Definition again : expr := EApp (EVar 0) [EVar 0; EApp (EQ (VPrim 0)) [EVar 1]].
(** (lambda (self n) (when (positive? n) (self self (1- n)))), and the
    same with AND for WHEN, and one which always calls itself and has a
    profile. *)
Definition vwhen : value :=
  VClo 2 0 false false [EWhen (EApp (EQ (VPrim 4)) [EVar 1]) [again]] [].
Definition vand : value :=
  VClo 2 0 false false [EAnd [EApp (EQ (VPrim 4)) [EVar 1]; again]] [].
Definition vprof : value := VClo 2 0 false true [again] [].

(** A call of itself which pushes a frame: the next round starts on two
    more frames. *)
Lemma again_deep : forall d v k nt pr b z env st tail,
  v = VClo 2 k nt pr b [] -> tail && negb pr = false ->
  (forall c t, (length t = length st + 1)%nat -> exists st',
     Loop demo_prim 0 (Some d) (lamframe (2 + k) v [v; VInt (z - 1)] c :: t) ODeep st') ->
  exists st', Ev demo_prim 0 (Some d) again (v :: VInt z :: env) st tail ODeep st'.
Proof.
  intros d v k nt pr b z env st tail -> Ht HL.
  destruct (le_lt_dec d (length st)) as [Hd|Hd].
  { eexists. apply s_deep; [exact I | apply room_no; exact Hd]. }
  destruct (le_lt_dec d (length st + 1)) as [Hd1|Hd1].
  { eexists. eapply s_pair; [exact I | apply room_yes; exact Hd |].
    eapply s_app_deep; [apply s_var; reflexivity | reflexivity |].
    eapply s_args_later; [apply s_var; reflexivity | reflexivity |].
    apply s_args_deep. apply s_deep; [exact I|]. apply room_no. simpl.
    destruct st; simpl in *; lia. }
  assert (Hl : length (settop tail st) = length st) by (destruct st; reflexivity).
  destruct (HL tail (settop tail (settop false (fresh :: settop tail st)))) as [st' Hst'].
  { simpl. lia. }
  exists (tl (tl st')).
  eapply s_pair; [exact I | apply room_yes; exact Hd |].
  eapply s_app_clo with (vs := [VClo 2 k nt pr b []; VInt (z - 1)]).
  - apply s_var; reflexivity.
  - reflexivity.
  - eapply s_args; [apply s_var; reflexivity | reflexivity |].
    eapply s_args; [apply demo_prim1 with (z := z) (v := VInt (z - 1)); [reflexivity | reflexivity | simpl; lia]
                   | reflexivity | apply s_args_nil].
  - apply s_call_push; [rewrite Ht; reflexivity | apply room_yes; simpl; lia | exact Hst'].
Qed.

(** (positive? n) when there may not be room for it. *)
Lemma demo_prim1_or : forall d p i env z v st, nth_error env i = Some (VInt z) ->
  demo_prim p [VInt z] = PDone v ->
  Ev demo_prim 0 (Some d) (EApp (EQ (VPrim p)) [EVar i]) env st false (OVal v) (settop false st) \/
  Ev demo_prim 0 (Some d) (EApp (EQ (VPrim p)) [EVar i]) env st false ODeep st.
Proof.
  intros d p i env z v st Hi Hp. destruct (le_lt_dec d (length st)) as [Hd|Hd].
  - right. apply s_deep; [exact I | apply room_no; exact Hd].
  - left. eapply demo_prim1; eauto.
Qed.

Lemma positive_succ : forall k, demo_prim 4 [VInt (Z.of_nat (S k))] = PDone VTrue.
Proof.
  intros k. unfold demo_prim. replace (0 <? Z.of_nat (S k)) with true; [reflexivity|].
  symmetry. apply Z.ltb_lt. lia.
Qed.

Lemma when_deep : forall d k c t, (d <= length t + 3 * k)%nat -> exists st',
  Loop demo_prim 0 (Some d) (lamframe 2 vwhen [vwhen; VInt (Z.of_nat k)] c :: t) ODeep st'.
Proof.
  intros d. induction k as [|k IH]; intros c t Hd.
  - eexists. eapply s_loop; [reflexivity | | discriminate]. apply s_body1.
    apply s_deep; [exact I | apply room_no; simpl; lia].
  - destruct (le_lt_dec d (S (length t))) as [Hd1|Hd1].
    { eexists. eapply s_loop; [reflexivity | | discriminate]. apply s_body1.
      apply s_deep; [exact I | apply room_no; simpl; lia]. }
    destruct (demo_prim1_or d 4 1 [vwhen; VInt (Z.of_nat (S k))] (Z.of_nat (S k)) VTrue
                (setbit true fresh :: setbit true (lamframe 2 vwhen [vwhen; VInt (Z.of_nat (S k))] c) :: t)
                eq_refl (positive_succ k)) as [Ht|Ht].
    + destruct (again_deep d vwhen 0 false false _ (Z.of_nat (S k)) []
                  (setbit false fresh :: setbit true (lamframe 2 vwhen [vwhen; VInt (Z.of_nat (S k))] c) :: t)
                  false eq_refl eq_refl) as [st' Hst'].
      { intros c' t' Hl. replace (Z.of_nat (S k) - 1) with (Z.of_nat k) by lia.
        apply IH. simpl in Hl. lia. }
      eexists. eapply s_loop; [reflexivity | | discriminate]. apply s_body1.
      eapply s_pair; [exact I | apply room_yes; simpl; lia |].
      eapply s_when; [exact Ht | reflexivity |]. apply s_body1. exact Hst'.
    + eexists. eapply s_loop; [reflexivity | | discriminate]. apply s_body1.
      eapply s_pair; [exact I | apply room_yes; simpl; lia |].
      eapply s_when_deep. exact Ht.
Qed.

Lemma and_deep : forall d k c t, (d <= length t + 3 * k)%nat -> exists st',
  Loop demo_prim 0 (Some d) (lamframe 2 vand [vand; VInt (Z.of_nat k)] c :: t) ODeep st'.
Proof.
  intros d. induction k as [|k IH]; intros c t Hd.
  - eexists. eapply s_loop; [reflexivity | | discriminate]. apply s_body1.
    apply s_deep; [exact I | apply room_no; simpl; lia].
  - destruct (le_lt_dec d (S (length t))) as [Hd1|Hd1].
    { eexists. eapply s_loop; [reflexivity | | discriminate]. apply s_body1.
      apply s_deep; [exact I | apply room_no; simpl; lia]. }
    destruct (demo_prim1_or d 4 1 [vand; VInt (Z.of_nat (S k))] (Z.of_nat (S k)) VTrue
                (setbit true fresh :: setbit true (lamframe 2 vand [vand; VInt (Z.of_nat (S k))] c) :: t)
                eq_refl (positive_succ k)) as [Ht|Ht].
    + destruct (again_deep d vand 0 false false _ (Z.of_nat (S k)) []
                  (setbit false fresh :: setbit true (lamframe 2 vand [vand; VInt (Z.of_nat (S k))] c) :: t)
                  false eq_refl eq_refl) as [st' Hst'].
      { intros c' t' Hl. replace (Z.of_nat (S k) - 1) with (Z.of_nat k) by lia.
        apply IH. simpl in Hl. lia. }
      eexists. eapply s_loop; [reflexivity | | discriminate]. apply s_body1.
      eapply s_pair; [exact I | apply room_yes; simpl; lia |].
      apply s_and. eapply s_and_next; [exact Ht | reflexivity |]. apply s_and_deep. exact Hst'.
    + eexists. eapply s_loop; [reflexivity | | discriminate]. apply s_body1.
      eapply s_pair; [exact I | apply room_yes; simpl; lia |].
      apply s_and. apply s_and_deep. exact Ht.
Qed.

Lemma prof_deep : forall d k c t z, (d <= length t + k)%nat -> exists st',
  Loop demo_prim 0 (Some d) (lamframe 2 vprof [vprof; VInt z] c :: t) ODeep st'.
Proof.
  intros d. induction k as [|k IH]; intros c t z Hd.
  - eexists. eapply s_loop; [reflexivity | | discriminate]. apply s_body1.
    apply s_deep; [exact I | apply room_no; simpl; lia].
  - destruct (again_deep d vprof 0 false true _ z [] (setbit true (lamframe 2 vprof [vprof; VInt z] c) :: t)
                  true eq_refl eq_refl) as [st' Hst'].
    { intros c' t' Hl. apply IH. simpl in Hl. lia. }
    eexists. eapply s_loop; [reflexivity | | discriminate]. apply s_body1. exact Hst'.
Qed.

Lemma start_deep : forall d v b pr z, v = VClo 2 0 false pr b [] ->
  (exists st', Loop demo_prim 0 (Some d) (lamframe 2 v [v; VInt z] false :: [setbit false fresh; setbit false fresh]) ODeep st') ->
  exists n st', ev demo_prim 0 (Some d) n (EApp (EQ v) [EQ v; EQ (VInt z)]) [] [fresh] false = Some (ODeep, st').
Proof.
  intros d v b pr z -> [st' HL].
  assert (H : exists st', Ev demo_prim 0 (Some d) (EApp (EQ (VClo 2 0 false pr b [])) [EQ (VClo 2 0 false pr b []); EQ (VInt z)]) []
                [fresh] false ODeep st').
  { destruct (le_lt_dec d 1) as [Hd|Hd].
    - eexists. apply s_deep; [exact I | apply room_no; exact Hd].
    - destruct (le_lt_dec d 2) as [Hd2|Hd2].
      + eexists. eapply s_pair; [exact I | apply room_yes; exact Hd |].
        eapply s_app_clo with (vs := [VClo 2 0 false pr b []; VInt z]).
        * apply s_const.
        * reflexivity.
        * eapply s_args; [apply s_const | reflexivity |].
          eapply s_args; [apply s_const | reflexivity | apply s_args_nil].
        * apply s_call_deep; [reflexivity | apply room_no; simpl; lia].
      + eexists. eapply s_pair; [exact I | apply room_yes; exact Hd |].
        eapply s_app_clo with (vs := [VClo 2 0 false pr b []; VInt z]).
        * apply s_const.
        * reflexivity.
        * eapply s_args; [apply s_const | reflexivity |].
          eapply s_args; [apply s_const | reflexivity | apply s_args_nil].
        * apply s_call_push; [reflexivity | apply room_yes; simpl; lia | exact HL]. }
  destruct H as [st'' [n E]]. exists n, st''. exact E.
Qed.

(** Not so below WHEN: the bit saying that the WHEN is in tail position
    is looked at after its test has been evaluated, which has cleared
    it (conditionals.c:148-157; UNLESS and CASE do the same).  Whatever
    number of frames is allowed, some number of rounds takes more. *)
Theorem C123_when_refuted : forall d, exists z n st',
  ev demo_prim 0 (Some d) n (EApp (EQ vwhen) [EQ vwhen; EQ (VInt z)]) [] [fresh] false
    = Some (ODeep, st').
Proof.
  intros d. exists (Z.of_nat d).
  eapply start_deep; [reflexivity|]. apply when_deep. simpl. lia.
Qed.
Print Assumptions C123_when_refuted.

(** Nor for the last clause of AND, evaluated as if more was to come
    (conditionals.c:186-194; OR and TRYIF do the same). *)
Theorem C123_and_refuted : forall d, exists z n st',
  ev demo_prim 0 (Some d) n (EApp (EQ vand) [EQ vand; EQ (VInt z)]) [] [fresh] false
    = Some (ODeep, st').
Proof.
  intros d. exists (Z.of_nat d).
  eapply start_deep; [reflexivity|]. apply and_deep. simpl. lia.
Qed.
Print Assumptions C123_and_refuted.

(** Nor for a lambda with a profile (lambda.c:227): profiling a program
    which runs in bounded space may take it over the limit. *)
Theorem C123_profile_refuted : forall d, exists z n st',
  ev demo_prim 0 (Some d) n (EApp (EQ vprof) [EQ vprof; EQ (VInt z)]) [] [fresh] false
    = Some (ODeep, st').
Proof.
  intros d. exists 0.
  eapply start_deep; [reflexivity|]. apply prof_deep with (k := d). simpl. lia.
Qed.
Print Assumptions C123_profile_refuted.

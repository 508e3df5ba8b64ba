(** * Tail calls: whatever the evaluator returns is right *)

From Coq Require Import ZArith List Bool Arith Lia.
Import ListNotations.
From Verif Require Import TailModel TailSpec TailProofs.

(** ** Frames before and after *)

(** Equal but for the tail bit of the first frame. *)
Definition keep (st st' : list frame) : Prop := settop false st = settop false st'.

(** The arguments fit the lambda, and its variables a frame. *)
Definition fits (fn : value) (vs : list value) (w : nat) : Prop :=
  match fn with
  | VClo k l _ _ _ _ => length vs = k /\ k + l <= w
  | _ => False
  end.

(** All frames from the first to a lambda frame have their tail bit set,
    and that frame has been taken over. *)
Inductive tailto (fn : value) (vs : list value) : list frame -> list frame -> Prop :=
| here : forall f t, f_bit f = true -> f_lam f = true -> fits fn vs (f_width f) ->
    tailto fn vs (f :: t) (takeover fn vs f :: t)
| there : forall f t t', f_bit f = true -> tailto fn vs t t' ->
    tailto fn vs (f :: t) (f :: t').

Lemma keep_refl : forall st, keep st st.
Proof. reflexivity. Qed.
Lemma keep_trans : forall a b c, keep a b -> keep b c -> keep a c.
Proof. unfold keep; congruence. Qed.
Lemma keep_set : forall b st, keep st (settop b st).
Proof. intros b [|f t]; reflexivity. Qed.
Lemma keep_set_l : forall b st st', keep (settop b st) st' -> keep st st'.
Proof. intros b st st' H; eapply keep_trans; [apply keep_set | exact H]. Qed.
Lemma keep_cons : forall f t st', keep (f :: t) st' ->
  exists f', st' = f' :: t /\ f_lam f' = f_lam f /\ f_loop f' = f_loop f /\
             f_width f' = f_width f /\ f_fn f' = f_fn f /\ f_args f' = f_args f.
Proof.
  intros f t [|f' t'] H; unfold keep in H; simpl in H; [discriminate|].
  inversion H; subst. exists f'. destruct f, f'; simpl in *; subst; auto 10.
Qed.
Lemma settop_keep : forall b st st', keep st st' -> settop b st = settop b st'.
Proof.
  intros b [|f t] [|f' t'] H; unfold keep in H; simpl in *; try discriminate; auto.
  inversion H; subst. unfold setbit; simpl. congruence.
Qed.
Lemma settop_settop : forall b c st, settop b (settop c st) = settop b st.
Proof. intros b c [|f t]; reflexivity. Qed.

Section Tail.
Variable prim : nat -> list value -> pstep.
Variable tmax : nat.
Variable lim : option nat.

Notation dv := (dv prim).
Notation dbody := (dbody prim).
Notation dand := (dand prim).
Notation dlets := (dlets prim).
Notation dargs := (dargs prim).
Notation dapp := (dapp prim).
Notation drun := (drun prim).
Notation ev := (ev prim tmax lim).
Notation evpair := (evpair prim tmax lim).
Notation evbody := (evbody prim tmax lim).
Notation evand := (evand prim tmax lim).
Notation evlets := (evlets prim tmax lim).
Notation evargs := (evargs prim tmax lim).
Notation call := (call prim tmax lim).
Notation loop := (loop prim tmax lim).
Notation run := (run prim tmax lim).

Lemma scan_tailto : forall k l nt pr body env vs st span i,
  length vs = k ->
  scan tmax (k + l) span st = Some i ->
  tailto (VClo k l nt pr body env) vs st (put i (VClo k l nt pr body env) vs st) /\
  exists f, nth_error st i = Some f /\ k + l <= f_width f.
Proof.
  intros k l nt pr body env vs st; induction st as [|f t IH]; intros span i Hk H; simpl in H;
    [discriminate|].
  destruct (f_bit f) eqn:Hb; simpl in H; [|discriminate].
  assert (Hnext : forall sp j, scan tmax (k + l) sp t = Some j ->
            tailto (VClo k l nt pr body env) vs (f :: t)
              (put (S j) (VClo k l nt pr body env) vs (f :: t)) /\
            exists f0, nth_error (f :: t) (S j) = Some f0 /\ k + l <= f_width f0).
  { intros sp j Hj. destruct (IH sp j Hk Hj) as [Ht Hf]. split; [|exact Hf].
    simpl. constructor; assumption. }
  destruct (f_lam f) eqn:Hl; simpl in H.
  - destruct (k + l <=? f_width f) eqn:Hw.
    + apply Nat.leb_le in Hw.
      assert (Hhere : tailto (VClo k l nt pr body env) vs (f :: t)
                (put 0 (VClo k l nt pr body env) vs (f :: t)) /\
              exists f0, nth_error (f :: t) 0 = Some f0 /\ k + l <= f_width f0).
      { split; [simpl; constructor; simpl; auto | exists f; auto]. }
      destruct ((0 <? tmax) && (tmax <=? S span)).
      * injection H as <-; exact Hhere.
      * destruct (scan tmax (k + l) (S span) t) eqn:E.
        -- injection H as <-. eapply Hnext; eauto.
        -- injection H as <-; exact Hhere.
    + destruct (scan tmax (k + l) span t) eqn:E; simpl in H; [|discriminate].
      injection H as <-. eapply Hnext; eauto.
  - destruct (scan tmax (k + l) span t) eqn:E; simpl in H; [|discriminate].
    injection H as <-. eapply Hnext; eauto.
Qed.

(** ** What an outcome says *)

Definition app (fn : value) (vs : list value) (r : res) : Prop :=
  exists n, dapp n fn vs = Some r.
Definition bgives (es : list expr) (env : list value) (r : res) : Prop :=
  exists n, dbody n es env = Some r.

(** For an evaluator which was given the frames [st] and may set the
    first one's bit. *)
Definition post (st : list frame) (tail : bool) (D : res -> Prop) (o : out)
    (st' : list frame) : Prop :=
  match o with
  | OVal v => keep st st' /\ D (Ok v)
  | OErr => keep st st' /\ D Fail
  | OTail => tail = true /\
      exists fn vs, tailto fn vs (settop true st) st' /\ (forall r, app fn vs r -> D r)
  | OOver => False
  | ODeep => lim <> None
  end.

(** For one which leaves the frames [st] as they are. *)
Definition post2 (st : list frame) (D : res -> Prop) (o : out) (st' : list frame) : Prop :=
  match o with
  | OVal v => st' = st /\ D (Ok v)
  | OErr => st' = st /\ D Fail
  | OTail => exists fn vs, tailto fn vs st st' /\ (forall r, app fn vs r -> D r)
  | OOver => False
  | ODeep => lim <> None
  end.

Lemma post_pop : forall f t tail D o st',
  f_lam f = false -> post (f :: t) tail D o st' -> post2 t D o (tl st').
Proof.
  intros f t tail D o st' Hl H; destruct o; simpl in *; auto.
  - destruct H as [Hk HD]. apply keep_cons in Hk. destruct Hk as (f' & -> & _). auto.
  - destruct H as [Hk HD]. apply keep_cons in Hk. destruct Hk as (f' & -> & _). auto.
  - destruct H as (_ & fn & vs & Ht & Hr). exists fn, vs. split; [|exact Hr].
    inversion Ht; subst; simpl in *; [congruence | assumption].
Qed.

Lemma post2_pop : forall f t D o st',
  f_lam f = false -> post2 (f :: t) D o st' -> post2 t D o (tl st').
Proof.
  intros f t D o st' Hl H; destruct o; simpl in *; auto.
  - destruct H as [-> HD]; auto.
  - destruct H as [-> HD]; auto.
  - destruct H as (fn & vs & Ht & Hr). exists fn, vs. split; [|exact Hr].
    inversion Ht; subst; simpl in *; [congruence | assumption].
Qed.

Lemma post2_push : forall st tail D o st',
  post2 (settop tail st) D o st' -> post st tail D o st'.
Proof.
  intros st tail D o st' H; destruct o; simpl in *; auto.
  - destruct H as [-> HD]; split; auto using keep_set.
  - destruct H as [-> HD]; split; auto using keep_set.
  - destruct H as (fn & vs & Ht & Hr).
    assert (tail = true) as ->.
    { destruct st; simpl in Ht; inversion Ht; subst; simpl in *; auto. }
    split; auto. exists fn, vs; auto.
Qed.

(** Frames may differ in the first one's bit before, too. *)
Lemma post_from : forall st st1 tail D o st',
  keep st st1 -> post st1 tail D o st' -> post st tail D o st'.
Proof.
  intros st st1 tail D o st' Hk H; destruct o; simpl in *; auto.
  - destruct H; split; auto. eapply keep_trans; eauto.
  - destruct H; split; auto. eapply keep_trans; eauto.
  - destruct H as (-> & fn & vs & Ht & Hr). split; auto. exists fn, vs.
    rewrite (settop_keep true _ _ Hk). auto.
Qed.

Lemma post_imp : forall st tail (D E : res -> Prop) o st',
  (forall r, D r -> E r) -> post st tail D o st' -> post st tail E o st'.
Proof.
  intros st tail D E o st' Hi H; destruct o; simpl in *; intuition.
  destruct H1 as (fn & vs & Ht & Hr). exists fn, vs; auto.
Qed.
Lemma post2_imp : forall st (D E : res -> Prop) o st',
  (forall r, D r -> E r) -> post2 st D o st' -> post2 st E o st'.
Proof.
  intros st D E o st' Hi H; destruct o; simpl in *; intuition.
  destruct H as (fn & vs & Ht & Hr). exists fn, vs; auto.
Qed.
Lemma post_tail : forall st tail D o st', post st false D o st' -> post st tail D o st'.
Proof. intros st tail D o st' H; destruct o; simpl in *; auto. destruct H; discriminate. Qed.

(** ** Putting results of direct evaluation together *)

Ltac up M :=
  repeat match goal with
  | E : TailSpec.dv _ ?k ?e ?env = Some ?x |- context [TailSpec.dv _ M ?e ?env] =>
      rewrite (dv_mono prim k M e env x E) by lia
  | E : TailSpec.dbody _ ?k ?e ?env = Some ?x |- context [TailSpec.dbody _ M ?e ?env] =>
      rewrite (dbody_mono prim k M e env x E) by lia
  | E : TailSpec.dand _ ?k ?e ?env ?v = Some ?x |- context [TailSpec.dand _ M ?e ?env ?v] =>
      rewrite (dand_mono prim k M e env v x E) by lia
  | E : TailSpec.dlets _ ?k ?e ?env = Some ?x |- context [TailSpec.dlets _ M ?e ?env] =>
      rewrite (dlets_mono prim k M e env x E) by lia
  | E : TailSpec.dargs _ ?k ?e ?env = Some ?x |- context [TailSpec.dargs _ M ?e ?env] =>
      rewrite (dargs_mono prim k M e env x E) by lia
  | E : TailSpec.dapp _ ?k ?e ?env = Some ?x |- context [TailSpec.dapp _ M ?e ?env] =>
      rewrite (dapp_mono prim k M e env x E) by lia
  | E : TailSpec.drun _ ?k ?e ?env = Some ?x |- context [TailSpec.drun _ M ?e ?env] =>
      rewrite (drun_mono prim k M e env x E) by lia
  end.

Ltac fuel0 := exists 1; reflexivity.
Ltac fuel1 a := exists (S a); simpl; up a; try reflexivity.
Ltac fuel2 a b := exists (S (a + b)); simpl; up (a + b); try reflexivity.
Ltac fuel3 a b c := exists (S (a + b + c)); simpl; up (a + b + c); try reflexivity.

Definition is_pair (e : expr) : Prop := match e with EQ _ | EVar _ => False | _ => True end.

Definition lsound (st : list frame) (L : lres -> Prop) (o : list value + out)
    (st' : list frame) : Prop :=
  match o with
  | inl vs => keep st st' /\ L (All vs)
  | inr o => post st false (fun r => L (Instead r)) o st'
  end.

Lemma sound : forall n,
  (forall e env st tail o st', ev n e env st tail = Some (o, st') ->
     post st tail (gives prim e env) o st') /\
  (forall e env f t tail o st', is_pair e -> f_lam f = false ->
     evpair n e env (f :: t) tail = Some (o, st') ->
     post2 t (gives prim e env) o (tl st')) /\
  (forall es env st tail o st', evbody n es env st tail = Some (o, st') ->
     post st tail (bgives es env) o st') /\
  (forall es env st v o st', evand n es env st v = Some (o, st') ->
     post st false (fun r => exists k, dand k es env v = Some r) o st') /\
  (forall es env st o st', evlets n es env st = Some (o, st') ->
     lsound st (fun r => exists k, dlets k es env = Some r) o st') /\
  (forall es env st o st', evargs n es env st = Some (o, st') ->
     lsound st (fun r => exists k, dargs k es env = Some r) o st' /\
     match o with inl vs => length vs = length es | inr _ => True end) /\
  (forall fn vs st tail o st', callable fn (length vs) = true ->
     (match fn with VPrim _ => False | _ => True end) ->
     call n fn vs st tail = Some (o, st') -> post2 st (app fn vs) o st') /\
  (forall f t o st', f_lam f = true -> f_loop f = false ->
     fits (f_fn f) (f_args f) (f_width f) ->
     loop n (f :: t) = Some (o, st') -> post2 t (app (f_fn f) (f_args f)) o (tl st')) /\
  (forall p vs st o st', run n p vs st = Some (o, st') ->
     post2 st (fun r => exists k, drun k p vs = Some r) o st' /\ o <> OTail).
Proof.
  induction n as [| n (IHev & IHpair & IHbody & IHand & IHlets & IHargs & IHcall & IHloop & IHrun)].
  { refine (conj _ (conj _ (conj _ (conj _ (conj _ (conj _ (conj _ (conj _ _)))))))); intros; discriminate. }
  refine (conj _ (conj _ (conj _ (conj _ (conj _ (conj _ (conj _ (conj _ _)))))))).
  - (* ev *)
    intros e env st tail o st' H.
    destruct e; simpl in H.
    1: { injection H as <- <-. split; [apply keep_refl | fuel0]. }
    1: { injection H as <- <-.
         destruct (nth_error env i) as [v|] eqn:E; [destruct v|];
           simpl; (split; [apply keep_refl | exists 1; simpl; rewrite E; reflexivity]). }
    all: destruct (room lim st) eqn:Er; [| injection H as <- <-; simpl; unfold room in Er; destruct lim; [discriminate | discriminate Er]];
         match type of H with context [match ?x with _ => _ end] =>
           destruct x as [[o1 st1]|] eqn:E; [|discriminate] end;
         injection H as <- <-;
         (apply IHpair in E; [| exact I | reflexivity]);
         apply post2_push; exact E.
  - (* evpair *)
    intros e env f t tail o st' Hp Hl H.
    destruct e; simpl in Hp; try contradiction; clear Hp; simpl in H.
    + (* lambda *)
      injection H as <- <-. simpl. split; auto. fuel0.
    + (* if *)
      destruct (ev n e1 env (setbit tail f :: t) false) as [[o1 st1]|] eqn:E1; [|discriminate].
      apply IHev in E1.
      assert (Hpop : forall o2 st2 (D : res -> Prop), post st1 true D o2 st2 ->
                keep (setbit tail f :: t) st1 -> post2 t D o2 (tl st2)).
      { intros o2 st2 D Hpo Hk. eapply post_pop with (f := setbit tail f); [exact Hl|].
        eapply post_from; eauto. }
      destruct o1 as [v| | | |]; simpl in E1;
        [| | destruct E1; discriminate | contradiction | injection H as <- <-; exact E1].
      2: { destruct E1 as [Hk [n1 E1]]. apply keep_cons in Hk. destruct Hk as (f' & -> & _).
           injection H as <- <-. simpl. split; auto. fuel1 n1. }
      destruct E1 as [Hk [n1 E1]].
      destruct v.
      all: try (apply IHev in H; eapply post2_imp; [| eapply Hpop; eassumption];
                intros r [n2 E2]; fuel2 n1 n2; exact E2).
      * destruct c as [c|].
        -- apply IHev in H. eapply post2_imp; [| eapply Hpop; eassumption].
           intros r [n2 E2]. fuel2 n1 n2.
        -- apply keep_cons in Hk. destruct Hk as (f' & -> & _).
           injection H as <- <-. simpl. split; auto. fuel1 n1.
      * apply keep_cons in Hk. destruct Hk as (f' & -> & _).
        injection H as <- <-. simpl. split; auto. fuel1 n1.
    + (* when *)
      destruct (ev n e env (setbit tail f :: t) false) as [[o1 st1]|] eqn:E1; [|discriminate].
      apply IHev in E1.
      destruct o1 as [v| | | |]; simpl in E1;
        [| | destruct E1; discriminate | contradiction | injection H as <- <-; exact E1].
      2: { destruct E1 as [Hk [n1 E1]]. apply keep_cons in Hk. destruct Hk as (f' & -> & _).
           injection H as <- <-. simpl. split; auto. fuel1 n1. }
      destruct E1 as [Hk [n1 E1]].
      destruct v.
      all: try (apply IHbody in H; eapply post2_imp;
                [| eapply post_pop with (f := setbit tail f); [exact Hl | eapply post_from; eassumption]];
                intros r [n2 E2]; fuel2 n1 n2; exact E2).
      all: apply keep_cons in Hk; destruct Hk as (f' & -> & _);
        injection H as <- <-; simpl; split; auto; fuel1 n1.
    + (* and *)
      apply IHand in H. eapply post2_imp; [| eapply post_pop with (f := setbit tail f); eassumption].
      intros r [n2 E2]. fuel1 n2. 
    + (* begin *)
      apply IHbody in H. eapply post2_imp; [| eapply post_pop with (f := setbit tail f); eassumption].
      intros r [n2 E2]. fuel1 n2.
    + (* let *)
      destruct (evlets n vals env (fresh :: setbit tail f :: t)) as [[o1 st1]|] eqn:E1; [|discriminate].
      apply IHlets in E1. destruct o1 as [vs|o1]; simpl in E1.
      * destruct E1 as [Hk [n1 E1]].
        destruct (evbody n body (vs ++ env) st1 tail) as [[o2 st2]|] eqn:E2; [|discriminate].
        injection H as <- <-. apply IHbody in E2.
        apply (post_from _ _ _ _ _ _ Hk) in E2.
        apply post_pop in E2; [|reflexivity].
        apply post2_pop in E2; [|exact Hl].
        eapply post2_imp; [|exact E2]. intros r [n2 E2']. fuel2 n1 n2. 
      * injection H as <- <-.
        apply post_pop in E1; [|reflexivity].
        apply post2_pop in E1; [|exact Hl].
        eapply post2_imp; [|exact E1]. intros r [n2 E2']. fuel1 n2.
    + (* macro *)
      destruct (ev n e env (fresh :: f :: t) false) as [[o1 st1]|] eqn:E1; [|discriminate].
      injection H as <- <-. apply IHev in E1.
      apply post_pop in E1; [|reflexivity].
      apply post2_pop in E1; [|exact Hl].
      eapply post2_imp; [|exact E1]. intros r [n2 E2']. fuel1 n2.
    + (* application *)
      destruct (ev n e env (f :: t) false) as [[o1 st1]|] eqn:E1; [|discriminate].
      apply IHev in E1.
      destruct o1 as [v| | | |]; simpl in E1;
        [| | destruct E1; discriminate | contradiction | injection H as <- <-; exact E1].
      2: { destruct E1 as [Hk [n1 E1]]. apply keep_cons in Hk. destruct Hk as (f' & -> & _).
           injection H as <- <-. simpl. split; auto. fuel1 n1. }
      destruct E1 as [Hk [n1 E1]].
      assert (Hgo : v <> VEmpty ->
        (if callable v (length args) then
           match evargs n args env st1 with
           | None => None
           | Some (inr o, st2) => Some (o, st2)
           | Some (inl vs, st2) =>
               match v with
               | VPrim p =>
                   match run n p vs (fresh :: settop tail st2) with
                   | None => None
                   | Some (o, st3) => Some (o, tl st3)
                   end
               | _ => call n v vs (settop tail st2) tail
               end
           end
         else Some (OErr, st1)) = Some (o, st') ->
        post2 t (gives prim (EApp e args) env) o (tl st')).
      { intros Hv HH.
        destruct (callable v (length args)) eqn:Hc.
        2: { injection HH as <- <-. apply keep_cons in Hk. destruct Hk as (f' & -> & _).
             simpl. split; auto. fuel1 n1. destruct v; try congruence; rewrite Hc; reflexivity. }
        destruct (evargs n args env st1) as [[o2 st2]|] eqn:E2; [|discriminate].
        apply IHargs in E2. destruct E2 as [E2 Hlen].
        destruct o2 as [vs|o2]; simpl in E2.
        2: { injection HH as <- <-. apply (post_from _ _ _ _ _ _ Hk) in E2.
             apply post_pop in E2; [|exact Hl].
             eapply post2_imp; [|exact E2]. intros r [n2 E2'].
             fuel2 n1 n2. destruct v; try congruence; rewrite Hc; up (n1 + n2); reflexivity. }
        destruct E2 as [Hk2 [n2 E2]].
        pose proof (keep_trans _ _ _ Hk Hk2) as Hk3. apply keep_cons in Hk3.
        destruct Hk3 as (f' & -> & Hl' & _). rewrite Hl in Hl'. simpl in HH.
        assert (Hd : forall r, app v vs r -> gives prim (EApp e args) env r).
        { intros r [n3 E3]. fuel3 n1 n2 n3.
          destruct v; try congruence; rewrite Hc; up (n1 + n2 + n3); reflexivity. }
        destruct v; try (apply IHcall in HH; [| rewrite Hlen; exact Hc | exact I];
          apply post2_pop in HH; [| exact Hl']; eapply post2_imp; [exact Hd | exact HH]).
        destruct (run n p vs (fresh :: setbit tail f' :: t)) as [[o3 st3]|] eqn:E3; [|discriminate].
        injection HH as <- <-. apply IHrun in E3. destruct E3 as [E3 _].
        apply post2_pop in E3; [|reflexivity]. apply post2_pop in E3; [|exact Hl'].
        eapply post2_imp; [|exact E3]. intros r [n3 E3']. apply Hd. fuel1 n3. }
      destruct v; try (apply Hgo; [discriminate | exact H]).
      injection H as <- <-. apply keep_cons in Hk. destruct Hk as (f' & -> & _).
      simpl. split; auto. fuel1 n1.
  - (* evbody *)
    intros es env st tail o st' H. destruct es as [|e [|e' es]]; simpl in H.
    + injection H as <- <-. simpl. split; [apply keep_refl | fuel0].
    + apply IHev in H. eapply post_from; [apply keep_set |].
      eapply post_imp; [|exact H]. intros r [n1 E1]. fuel1 n1.
    + destruct (ev n e env (settop false st) false) as [[o1 st1]|] eqn:E1; [|discriminate].
      apply IHev in E1.
      destruct o1 as [v| | | |]; simpl in E1;
        [| | destruct E1; discriminate | contradiction | injection H as <- <-; exact E1].
      2: { destruct E1 as [Hk [n1 E1]]. injection H as <- <-. simpl.
           split; [apply keep_set_l in Hk; exact Hk | fuel1 n1]. }
      destruct E1 as [Hk [n1 E1]]. apply keep_set_l in Hk.
      apply IHbody in H. eapply post_from; [exact Hk|].
      eapply post_imp; [|exact H]. intros r [n2 E2]. fuel2 n1 n2.
  - (* evand *)
    intros es env st v o st' H. destruct es as [|e es]; simpl in H.
    + injection H as <- <-. simpl. split; [apply keep_refl | fuel0].
    + destruct (ev n e env st false) as [[o1 st1]|] eqn:E1; [|discriminate].
      apply IHev in E1.
      destruct o1 as [v1| | | |]; simpl in E1;
        [| | destruct E1; discriminate | contradiction | injection H as <- <-; simpl; auto].
      2: { destruct E1 as [Hk [n1 E1]]. injection H as <- <-. simpl. split; [exact Hk | fuel1 n1]. }
      destruct E1 as [Hk [n1 E1]].
      destruct v1; try (apply IHand in H; eapply post_from; [exact Hk|];
        eapply post_imp; [|exact H]; intros r [n2 E2]; fuel2 n1 n2; exact E2).
      all: injection H as <- <-; simpl; split; [exact Hk | fuel1 n1].
  - (* evlets *)
    intros es env st o st' H. destruct es as [|e es]; simpl in H.
    + injection H as <- <-. simpl. split; [apply keep_refl | fuel0].
    + destruct (ev n e env st false) as [[o1 st1]|] eqn:E1; [|discriminate].
      apply IHev in E1.
      destruct o1 as [v1| | | |]; simpl in E1;
        [| | destruct E1; discriminate | contradiction | injection H as <- <-; simpl; auto].
      2: { destruct E1 as [Hk [n1 E1]]. injection H as <- <-. simpl. split; [exact Hk | fuel1 n1]. }
      destruct E1 as [Hk [n1 E1]].
      destruct v1; try (destruct (evlets n es env st1) as [[o2 st2]|] eqn:E2; [|discriminate];
        apply IHlets in E2; destruct o2 as [vs|o2]; simpl in E2; injection H as <- <-; simpl;
        [ destruct E2 as [Hk2 [n2 E2]]; split; [eapply keep_trans; eauto | fuel2 n1 n2]
        | eapply post_from; [exact Hk|]; eapply post_imp; [|exact E2]; intros r [n2 E2']; fuel2 n1 n2 ]).
      injection H as <- <-; simpl; split; [exact Hk | fuel1 n1].
  - (* evargs *)
    intros es env st o st' H. destruct es as [|e es]; simpl in H.
    + injection H as <- <-. simpl. split; [split; [apply keep_refl | fuel0] | reflexivity].
    + destruct (ev n e env st false) as [[o1 st1]|] eqn:E1; [|discriminate].
      apply IHev in E1.
      destruct o1 as [v1| | | |]; simpl in E1;
        [| | destruct E1; discriminate | contradiction | injection H as <- <-; simpl; auto].
      2: { destruct E1 as [Hk [n1 E1]]. injection H as <- <-. simpl. split; [split; [exact Hk | fuel1 n1] | exact I]. }
      destruct E1 as [Hk [n1 E1]].
      destruct v1; try (destruct (evargs n es env st1) as [[o2 st2]|] eqn:E2; [|discriminate];
        apply IHargs in E2; destruct E2 as [E2 Hlen]; destruct o2 as [vs|o2]; simpl in E2; injection H as <- <-; simpl;
        [ destruct E2 as [Hk2 [n2 E2]]; split; [split; [eapply keep_trans; eauto | fuel2 n1 n2] | simpl; congruence]
        | split; [|exact I]; eapply post_from; [exact Hk|]; eapply post_imp; [|exact E2]; intros r [n2 E2']; fuel2 n1 n2 ]).
      all: injection H as <- <-; simpl; (split; [split; [exact Hk | fuel1 n1] | exact I]).
  - (* call *)
    intros fn vs st tail o st' Hc Hnp H. simpl in H.
    destruct fn; try discriminate; try contradiction. simpl in Hc. apply Nat.eqb_eq in Hc.
    destruct (if tail && negb pr then scan tmax (k + l) 0 st else None) as [i|] eqn:Es.
    + destruct (tail && negb pr); [|discriminate].
      destruct (scan_tailto k l nt pr body env vs st 0 i Hc Es) as [Ht (fr & Hn & Hw)].
      rewrite Hn in H. apply Nat.leb_le in Hw. rewrite Hw in H. injection H as <- <-.
      simpl. exists (VClo k l nt pr body env), vs. split; auto.
    + destruct (room lim st) eqn:Er; [| injection H as <- <-; simpl; unfold room in Er; destruct lim; [discriminate | discriminate Er]].
      destruct (loop n (lamframe (k + l) (VClo k l nt pr body env) vs tail :: st)) as [[o1 st1]|] eqn:E;
        [|discriminate].
      injection H as <- <-. apply IHloop in E; auto. simpl. auto.
  - (* loop *)
    intros f t o st' Hl Hlp Hf H. rewrite loop_S in H.
    destruct (f_fn f) eqn:Hfn; simpl in Hf; try contradiction. destruct Hf as [Hlen Hw].
    destruct (evbody n body (f_args f ++ repeat VUnbound l ++ env) (f :: t) (negb nt)) as [[o1 st1]|] eqn:E;
      [|discriminate].
    apply IHbody in E.
    assert (Hd : forall r, bgives body (f_args f ++ repeat VUnbound l ++ env) r ->
              app (VClo k l nt pr body env) (f_args f) r).
    { intros r [n1 E1]. fuel1 n1. }
    destruct o1 as [v| | | |]; simpl in E; [| | | contradiction | injection H as <- <-; exact E].
    + injection H as <- <-. destruct E as [Hk HD]. apply keep_cons in Hk.
      destruct Hk as (f' & -> & _). simpl. auto.
    + injection H as <- <-. destruct E as [Hk HD]. apply keep_cons in Hk.
      destruct Hk as (f' & -> & _). simpl. auto.
    + destruct E as (_ & fn' & vs' & Ht & Hr).
      inversion Ht as [f0 t0 Hb0 Hl0 Hf0 | f0 t0 t' Hb0 Ht']; subst; simpl in *.
      * apply IHloop in H; simpl; auto.
        simpl in H. eapply post2_imp; [|exact H]. auto.
      * rewrite Hlp in H. injection H as <- <-. simpl. exists fn', vs'. auto.
  - (* run *)
    intros p vs st o st' H. simpl in H.
    destruct (prim p vs) as [v| |fn args p1] eqn:Ep.
    + injection H as <- <-. simpl. split; [split; auto | discriminate].
      exists 1; simpl; rewrite Ep; reflexivity.
    + injection H as <- <-. simpl. split; [split; auto | discriminate].
      exists 1; simpl; rewrite Ep; reflexivity.
    + destruct (callable fn (length args)) eqn:Hc.
      2: { injection H as <- <-. simpl. split; [split; auto | discriminate].
           exists 1; simpl; rewrite Ep, Hc; reflexivity. }
      assert (Hcall : forall o1 st1,
        match fn with
        | VPrim q => run n q args (fresh :: st)
        | _ => call n fn args (fresh :: st) true
        end = Some (o1, st1) -> post2 (fresh :: st) (app fn args) o1 st1).
      { intros o1 st1 HH. destruct fn; try discriminate.
        - apply IHcall in HH; auto.
        - apply IHrun in HH. destruct HH as [HH _]. eapply post2_imp; [|exact HH].
          intros r [n1 E1]. fuel1 n1. }
      match type of H with (match ?x with _ => _ end) = _ =>
        destruct x as [[o1 st1]|] eqn:E1; [|discriminate] end.
      clear E1. pose proof (Hcall _ _ eq_refl) as E1. destruct o1 as [v| | | |]; simpl in E1;
        [| | | contradiction | injection H as <- <-; simpl; split; [exact E1 | discriminate]].
      * destruct E1 as [-> [n1 E1]]. simpl in H. apply IHrun in H. destruct H as [H Hn].
        split; auto. eapply post2_imp; [|exact H]. intros r [n2 E2].
        exists (S (n1 + n2)); simpl. rewrite Ep, Hc. up (n1 + n2). reflexivity.
      * destruct E1 as [-> [n1 E1]]. injection H as <- <-. simpl. split; [split; auto | discriminate].
        exists (S n1); simpl. rewrite Ep, Hc. up n1. reflexivity.
      * destruct E1 as (fn' & vs' & Ht & _). inversion Ht; discriminate.
Qed.
End Tail.

(** * Tail calls: the evaluator gets as far as direct evaluation does *)

From Coq Require Import ZArith List Bool Arith Lia.
Import ListNotations.
From Verif Require Import TailModel TailSpec TailProofs TailProofs2.

Section Tail.
Variable prim : nat -> list value -> pstep.
Variable tmax : nat.

Notation dv := (dv prim).
Notation dbody := (dbody prim).
Notation dand := (dand prim).
Notation dlets := (dlets prim).
Notation dargs := (dargs prim).
Notation dapp := (dapp prim).
Notation drun := (drun prim).
Notation ev := (ev prim tmax None).
Notation evpair := (evpair prim tmax None).
Notation evbody := (evbody prim tmax None).
Notation evand := (evand prim tmax None).
Notation evlets := (evlets prim tmax None).
Notation evargs := (evargs prim tmax None).
Notation call := (call prim tmax None).
Notation loop := (loop prim tmax None).
Notation run := (run prim tmax None).

(** ** Direct evaluation has one result *)

Lemma dv_det : forall n m e env r s, dv n e env = Some r -> dv m e env = Some s -> r = s.
Proof.
  intros n m e env r s H1 H2.
  apply (dv_mono prim _ (n + m)) in H1; [|lia]. apply (dv_mono prim _ (n + m)) in H2; [|lia].
  congruence.
Qed.
Lemma dapp_det : forall n m fn vs r s, dapp n fn vs = Some r -> dapp m fn vs = Some s -> r = s.
Proof.
  intros n m e env r s H1 H2.
  apply (dapp_mono prim _ (n + m)) in H1; [|lia]. apply (dapp_mono prim _ (n + m)) in H2; [|lia].
  congruence.
Qed.

Ltac upm M :=
  repeat match goal with
  | E : TailModel.ev _ _ _ ?k ?e ?env ?st ?tl = Some ?x |- context [TailModel.ev _ _ _ M ?e ?env ?st ?tl] =>
      rewrite (proj1 (ev_mono_all prim tmax None k) M e env st tl x ltac:(lia) E)
  | E : TailModel.evpair _ _ _ ?k ?e ?env ?st ?tl = Some ?x |- context [TailModel.evpair _ _ _ M ?e ?env ?st ?tl] =>
      rewrite (proj1 (proj2 (ev_mono_all prim tmax None k)) M e env st tl x ltac:(lia) E)
  | E : TailModel.evbody _ _ _ ?k ?e ?env ?st ?tl = Some ?x |- context [TailModel.evbody _ _ _ M ?e ?env ?st ?tl] =>
      rewrite (proj1 (proj2 (proj2 (ev_mono_all prim tmax None k))) M e env st tl x ltac:(lia) E)
  | E : TailModel.evand _ _ _ ?k ?e ?env ?st ?v = Some ?x |- context [TailModel.evand _ _ _ M ?e ?env ?st ?v] =>
      rewrite (proj1 (proj2 (proj2 (proj2 (ev_mono_all prim tmax None k)))) M e env st v x ltac:(lia) E)
  | E : TailModel.evlets _ _ _ ?k ?e ?env ?st = Some ?x |- context [TailModel.evlets _ _ _ M ?e ?env ?st] =>
      rewrite (proj1 (proj2 (proj2 (proj2 (proj2 (ev_mono_all prim tmax None k))))) M e env st x ltac:(lia) E)
  | E : TailModel.evargs _ _ _ ?k ?e ?env ?st = Some ?x |- context [TailModel.evargs _ _ _ M ?e ?env ?st] =>
      rewrite (proj1 (proj2 (proj2 (proj2 (proj2 (proj2 (ev_mono_all prim tmax None k)))))) M e env st x ltac:(lia) E)
  | E : TailModel.call _ _ _ ?k ?fn ?vs ?st ?tl = Some ?x |- context [TailModel.call _ _ _ M ?fn ?vs ?st ?tl] =>
      rewrite (proj1 (proj2 (proj2 (proj2 (proj2 (proj2 (proj2 (ev_mono_all prim tmax None k))))))) M fn vs st tl x ltac:(lia) E)
  | E : TailModel.loop _ _ _ ?k ?st = Some ?x |- context [TailModel.loop _ _ _ M ?st] =>
      rewrite (proj1 (proj2 (proj2 (proj2 (proj2 (proj2 (proj2 (proj2 (ev_mono_all prim tmax None k)))))))) M st x ltac:(lia) E)
  | E : TailModel.run _ _ _ ?k ?p ?vs ?st = Some ?x |- context [TailModel.run _ _ _ M ?p ?vs ?st] =>
      rewrite (proj2 (proj2 (proj2 (proj2 (proj2 (proj2 (proj2 (proj2 (ev_mono_all prim tmax None k)))))))) M p vs st x ltac:(lia) E)
  end.

Definition ofr (r : res) : out := match r with Ok v => OVal v | Fail => OErr end.

(** Taken over for a call with the same result, got in fewer steps. *)
Definition less (n : nat) (r : res) (st st' : list frame) : Prop :=
  exists fn vs k, k < n /\ dapp k fn vs = Some r /\ tailto fn vs st st'.

Lemma less_pop : forall n r b f t st', f_lam f = false ->
  less n r (settop b (f :: t)) st' -> less n r t (tl st').
Proof.
  intros n r b f t st' Hl (fn & vs & k & Hk & Hd & Ht). exists fn, vs, k.
  split; [|split]; auto. inversion Ht; subst; simpl in *; [congruence | assumption].
Qed.
Lemma less_mono : forall n m r st st', n <= m -> less n r st st' -> less m r st st'.
Proof. intros n m r st st' H (fn & vs & k & Hk & Hd & Ht). exists fn, vs, k. split; [lia | auto]. Qed.

Definition reach (n : nat) : Prop :=
  (forall e env r, dv n e env = Some r -> forall st tail, exists m o st',
     ev m e env st tail = Some (o, st') /\ (o = OTail -> less n r (settop true st) st')) /\
  (forall es env r, dbody n es env = Some r -> forall st tail, exists m o st',
     evbody m es env st tail = Some (o, st') /\ (o = OTail -> less n r (settop true st) st')) /\
  (forall es env v r, dand n es env v = Some r -> forall st, exists m st',
     evand m es env st v = Some (ofr r, st') /\ keep st st') /\
  (forall es env r, dlets n es env = Some r -> forall st, exists m st',
     evlets m es env st = Some (match r with All vs => inl vs | Instead x => inr (ofr x) end, st') /\
     keep st st') /\
  (forall es env r, dargs n es env = Some r -> forall st, exists m st',
     evargs m es env st = Some (match r with All vs => inl vs | Instead x => inr (ofr x) end, st') /\
     keep st st') /\
  (forall fn vs r, dapp n fn vs = Some r -> callable fn (length vs) = true ->
     (match fn with VPrim _ => False | _ => True end) -> forall st tail, exists m o st',
     call m fn vs st tail = Some (o, st') /\ (o = OTail -> less (S n) r st st')) /\
  (forall f t r, dapp n (f_fn f) (f_args f) = Some r -> f_lam f = true -> f_loop f = false ->
     fits (f_fn f) (f_args f) (f_width f) -> exists m o st',
     loop m (f :: t) = Some (o, st') /\ (o = OTail -> less n r t (tl st'))) /\
  (forall p vs r, drun n p vs = Some r -> forall st, exists m,
     run m p vs st = Some (ofr r, st)).

Lemma post_keep : forall st (D : res -> Prop) o st' r, (forall s, D s -> s = r) ->
  post prim None st false D o st' -> o = ofr r /\ keep st st'.
Proof.
  intros st D o st' r Hd H. destruct o; simpl in H.
  - destruct H as [Hk HD]. apply Hd in HD. subst; auto.
  - destruct H as [Hk HD]. apply Hd in HD. subst; auto.
  - destruct H; discriminate.
  - contradiction.
  - congruence.
Qed.

(** Where no tail call is possible the value comes back. *)
Lemma reach_arg : forall n, reach n -> forall e env r st, dv n e env = Some r ->
  exists m st', ev m e env st false = Some (ofr r, st') /\ keep st st'.
Proof.
  intros n (Hev & _) e env r st H. destruct (Hev e env r H st false) as (m & o & st' & E & _).
  pose proof (proj1 (sound prim tmax None m) _ _ _ _ _ _ E) as Hs.
  apply (post_keep _ _ _ _ r) in Hs.
  - destruct Hs as [-> Hk]. exists m, st'. auto.
  - intros s [k Hk]. eapply dv_det; eauto.
Qed.

Lemma keep_less : forall n r st st1 st2, keep st st1 ->
  less n r (settop true st1) st2 -> less n r (settop true st) st2.
Proof. intros n r st st1 st2 Hk H. rewrite (settop_keep true _ _ Hk). exact H. Qed.

Lemma reach_all : forall n, reach n.
Proof.
  induction n as [n IH] using lt_wf_ind.
  assert (Harg : forall k, k < n -> forall e env r st, dv k e env = Some r ->
            exists m st', ev m e env st false = Some (ofr r, st') /\ keep st st').
  { intros k Hk. apply reach_arg. apply IH; exact Hk. }
  assert (Hloop : forall f t r, dapp n (f_fn f) (f_args f) = Some r -> f_lam f = true ->
     f_loop f = false -> fits (f_fn f) (f_args f) (f_width f) -> exists m o st',
     loop m (f :: t) = Some (o, st') /\ (o = OTail -> less n r t (tl st'))).
  { intros f t r H Hl Hlp Hf. destruct n as [|n]; [discriminate|].
    destruct (f_fn f) eqn:Hfn; simpl in Hf; try contradiction. destruct Hf as [Hlen Hw].
    simpl in H. destruct (IH n ltac:(lia)) as (_ & Hb & _).
    destruct (Hb _ _ _ H (f :: t) (negb nt)) as (m & o & st' & E & Ho).
    destruct o as [v| | | |].
    - exists (S m), (OVal v), st'. rewrite loop_S, Hfn. rewrite E. split; [reflexivity | discriminate].
    - exists (S m), OErr, st'. rewrite loop_S, Hfn. rewrite E. split; [reflexivity | discriminate].
    - destruct (Ho eq_refl) as (fn & vs & k' & Hk & Hd & Ht).
      inversion Ht as [f0 t0 Hb0 Hl0 Hf0 | f0 t0 t' Hb0 Ht']; subst; simpl in *.
      + destruct (IH k' ltac:(lia)) as (_ & _ & _ & _ & _ & _ & Hlo & _).
        destruct (Hlo (noloop (takeover fn vs (setbit true f))) t r Hd eq_refl eq_refl Hf0)
          as (m2 & o2 & st2 & E2 & Ho2).
        exists (S (m + m2)), o2, st2. rewrite loop_S, Hfn. upm (m + m2). simpl. upm (m + m2).
        split; [reflexivity|]. intros Ht2. eapply less_mono; [|apply Ho2; exact Ht2]. lia.
      + exists (S m), OTail, (setbit true f :: t'). rewrite loop_S, Hfn, E. simpl. rewrite Hlp.
        split; [reflexivity|]. intros _. exists fn, vs, k'. split; [lia | auto].
    - pose proof (proj1 (proj2 (proj2 (sound prim tmax None m))) _ _ _ _ _ _ E) as Hs. contradiction.
    - pose proof (proj1 (proj2 (proj2 (sound prim tmax None m))) _ _ _ _ _ _ E) as Hs. exfalso; apply Hs; reflexivity. }
  assert (Hcall : forall fn vs r, dapp n fn vs = Some r -> callable fn (length vs) = true ->
     (match fn with VPrim _ => False | _ => True end) -> forall st tail, exists m o st',
     call m fn vs st tail = Some (o, st') /\ (o = OTail -> less (S n) r st st')).
  { intros fn vs r H Hc Hp st tail. destruct fn; try discriminate; try contradiction.
    simpl in Hc. apply Nat.eqb_eq in Hc.
    destruct (if tail && negb pr then scan tmax (k + l) 0 st else None) as [i|] eqn:Es.
    - exists 1. simpl. rewrite Es.
      destruct (tail && negb pr); [|discriminate].
      destruct (scan_tailto tmax k l nt pr body env vs st 0 i Hc Es) as [Ht (fr & Hn & Hw)].
      rewrite Hn. apply Nat.leb_le in Hw. rewrite Hw.
      eexists _, _. split; [reflexivity|]. intros _. exists (VClo k l nt pr body env), vs, n.
      split; [lia | auto].
    - destruct (Hloop (lamframe (k + l) (VClo k l nt pr body env) vs tail) st r H eq_refl eq_refl)
        as (m & o & st' & E & Ho); [simpl; auto|].
      exists (S m), o, (tl st'). simpl. rewrite Es, E. split; [reflexivity|].
      intros Hto. eapply less_mono; [|apply Ho; exact Hto]. lia. }
  assert (Hcall_r : forall k, k < n -> forall fn vs r, dapp k fn vs = Some r ->
     callable fn (length vs) = true -> forall st, exists m,
     (match fn with VPrim q => run m q vs (fresh :: st) | _ => call m fn vs (fresh :: st) true end)
       = Some (ofr r, fresh :: st)).
  { intros k0 Hk0 fn vs r H Hc st. destruct fn; try discriminate.
    - destruct (IH k0 Hk0) as (_ & _ & _ & _ & _ & Hca & _).
      destruct (Hca _ _ _ H Hc I (fresh :: st) true) as (m & o & st' & E & Ho).
      exists m. rewrite E.
      pose proof (proj1 (proj2 (proj2 (proj2 (proj2 (proj2 (proj2 (sound prim tmax None m))))))) _ _ _ _ _ _ Hc I E) as Hs.
      destruct o; simpl in Hs.
      + destruct Hs as [-> [j Hj]]. rewrite (dapp_det _ _ _ _ _ _ H Hj). reflexivity.
      + destruct Hs as [-> [j Hj]]. rewrite (dapp_det _ _ _ _ _ _ H Hj). reflexivity.
      + destruct Hs as (? & ? & Ht & _). inversion Ht; discriminate.
      + contradiction.
      + congruence.
    - destruct k0 as [|k0]; [discriminate|]. simpl in H.
      destruct (IH k0 ltac:(lia)) as (_ & _ & _ & _ & _ & _ & _ & Hr).
      apply (Hr _ _ _ H). }
  assert (Hrun : forall p vs r, drun n p vs = Some r -> forall st, exists m,
     run m p vs st = Some (ofr r, st)).
  { intros p vs r H st. destruct n as [|n]; [discriminate|]. simpl in H.
    destruct (prim p vs) as [v| |fn args p1] eqn:Ep.
    - injection H as <-. exists 1. simpl. rewrite Ep. reflexivity.
    - injection H as <-. exists 1. simpl. rewrite Ep. reflexivity.
    - destruct (callable fn (length args)) eqn:Hc.
      2: { injection H as <-. exists 1. simpl. rewrite Ep, Hc. reflexivity. }
      destruct (dapp n fn args) as [r1|] eqn:E1; [|discriminate].
      destruct (Hcall_r n ltac:(lia) fn args r1 E1 Hc st) as (m & E).
      destruct r1 as [v|].
      + destruct (IH n ltac:(lia)) as (_ & _ & _ & _ & _ & _ & _ & Hr).
        destruct (Hr _ _ _ H st) as (m2 & E2).
        exists (S (m + m2)). simpl. rewrite Ep, Hc.
        destruct fn; try discriminate; upm (m + m2); simpl; upm (m + m2); reflexivity.
      + injection H as <-. exists (S m). simpl. rewrite Ep, Hc.
        destruct fn; try discriminate; rewrite E; reflexivity. }
  assert (Hpair : forall e env r, dv n e env = Some r -> is_pair e -> forall f t tail,
     f_lam f = false -> exists m o st',
     evpair m e env (f :: t) tail = Some (o, st') /\ (o = OTail -> less n r t (tl st'))).
  { intros e env r H Hp f t tail Hl. destruct n as [|n]; [discriminate|].
    assert (Hn : n < S n) by lia.
    destruct (IH n Hn) as (Hev & Hb & Ha & Hle & Har & Hca & _ & Hr).
    assert (Hstep : forall st1, keep (setbit tail f :: t) st1 -> forall st2,
              less n r (settop true st1) st2 -> less (S n) r t (tl st2)).
    { intros st1 Hk st2 HH. eapply less_mono with (n := n); [lia|].
      apply less_pop with (b := true) (f := setbit tail f); [exact Hl|].
      eapply keep_less; eauto. }
    destruct e; simpl in Hp; try contradiction; simpl in H.
    - (* lambda *)
      exists 1. simpl. eexists _, _. split; [reflexivity | discriminate].
    - (* if *)
      destruct (dv n e1 env) as [r1|] eqn:E1; [|discriminate].
      destruct (Harg n Hn _ _ _ (setbit tail f :: t) E1) as (m1 & st1 & M1 & Hk).
      destruct r1 as [v|].
      2: { exists (S m1). simpl. rewrite M1. eexists _, _. split; [reflexivity | discriminate]. }
      assert (Hbr : forall e', dv n e' env = Some r -> exists m o st',
                ev m e' env st1 true = Some (o, st') /\ (o = OTail -> less (S n) r t (tl st'))).
      { intros e' He'. destruct (Hev _ _ _ He' st1 true) as (m2 & o2 & st2 & M2 & Ho2).
        exists m2, o2, st2. split; auto. intros Hto. eapply Hstep; eauto. }
      destruct v.
      all: try (destruct (Hbr _ H) as (m2 & o2 & st2 & M2 & Ho2); exists (S (m1 + m2)), o2, st2; simpl;
                upm (m1 + m2); simpl; upm (m1 + m2); (split; [reflexivity | exact Ho2])).
      + destruct c as [c|].
        * destruct (Hbr _ H) as (m2 & o2 & st2 & M2 & Ho2). exists (S (m1 + m2)), o2, st2. simpl.
          upm (m1 + m2). simpl. upm (m1 + m2). split; [reflexivity | exact Ho2].
        * exists (S m1). simpl. rewrite M1. simpl. eexists _, _. split; [reflexivity | discriminate].
      + exists (S m1). simpl. rewrite M1. simpl. eexists _, _. split; [reflexivity | discriminate].
    - (* when *)
      destruct (dv n e env) as [r1|] eqn:E1; [|discriminate].
      destruct (Harg n Hn _ _ _ (setbit tail f :: t) E1) as (m1 & st1 & M1 & Hk).
      destruct r1 as [v|].
      2: { exists (S m1). simpl. rewrite M1. eexists _, _. split; [reflexivity | discriminate]. }
      destruct v.
      all: try (exists (S m1); simpl; rewrite M1; simpl; eexists _, _; (split; [reflexivity | discriminate])).
      all: destruct (Hb _ _ _ H st1 (topbit st1)) as (m2 & o2 & st2 & M2 & Ho2);
        exists (S (m1 + m2)), o2, st2; simpl; upm (m1 + m2); simpl; upm (m1 + m2);
        (split; [reflexivity | intros Hto; eapply Hstep; eauto]).
    - (* and *)
      destruct (Ha _ _ _ _ H (setbit tail f :: t)) as (m1 & st1 & M1 & Hk).
      exists (S m1), (ofr r), st1. simpl. rewrite M1. split; [reflexivity|]. destruct r; discriminate.
    - (* begin *)
      destruct (Hb _ _ _ H (setbit tail f :: t) tail) as (m1 & o1 & st1 & M1 & Ho).
      exists (S m1), o1, st1. simpl. rewrite M1. split; [reflexivity|].
      intros Hto. eapply Hstep; [apply keep_refl | auto].
    - (* let *)
      destruct (dlets n vals env) as [r1|] eqn:E1; [|discriminate].
      destruct (Hle _ _ _ E1 (fresh :: setbit tail f :: t)) as (m1 & st1 & M1 & Hk).
      destruct r1 as [vs|r1].
      + destruct (Hb _ _ _ H st1 tail) as (m2 & o2 & st2 & M2 & Ho2).
        exists (S (m1 + m2)), o2, (tl st2). simpl. upm (m1 + m2). simpl. upm (m1 + m2).
        split; [reflexivity|]. intros Hto. specialize (Ho2 Hto).
        eapply less_mono with (n := n); [lia|].
        apply (keep_less _ _ _ _ _ Hk) in Ho2. apply less_pop in Ho2; [|reflexivity].
        change (setbit tail f :: t) with (settop tail (f :: t)) in Ho2.
        apply less_pop in Ho2; auto.
      + exists (S m1), (ofr r1), (tl st1). simpl. rewrite M1. split; [reflexivity|]. destruct r1; discriminate.
    - (* macro *)
      destruct (Harg n Hn _ _ _ (fresh :: f :: t) H) as (m1 & st1 & M1 & Hk).
      exists (S m1), (ofr r), (tl st1). simpl. rewrite M1. split; [reflexivity|]. destruct r; discriminate.
    - (* application *)
      destruct (dv n e env) as [r1|] eqn:E1; [|discriminate].
      destruct (Harg n Hn _ _ _ (f :: t) E1) as (m1 & st1 & M1 & Hk).
      destruct r1 as [v|].
      2: { exists (S m1). simpl. rewrite M1. eexists _, _. split; [reflexivity | discriminate]. }
      assert (Hgo : v <> VEmpty ->
        (if callable v (length args) then
           match dargs n args env with
           | Some (All vs) => dapp n v vs
           | Some (Instead r) => Some r
           | None => None
           end
         else Some Fail) = Some r -> exists m o st',
        evpair m (EApp e args) env (f :: t) tail = Some (o, st') /\ (o = OTail -> less (S n) r t (tl st'))).
      { intros Hv HH. destruct (callable v (length args)) eqn:Hc.
        2: { exists (S m1), OErr, st1. simpl. rewrite M1. simpl.
             destruct v; try congruence; rewrite Hc; (split; [reflexivity | discriminate]). }
        destruct (dargs n args env) as [r2|] eqn:E2; [|discriminate].
        destruct (Har _ _ _ E2 st1) as (m2 & st2 & M2 & Hk2).
        destruct r2 as [vs|r2].
        2: { injection HH as <-. exists (S (m1 + m2)), (ofr r2), st2. simpl. upm (m1 + m2). simpl.
             destruct v; try congruence; rewrite Hc; upm (m1 + m2);
               (split; [reflexivity | destruct r2; discriminate]). }
        pose proof (keep_trans _ _ _ Hk Hk2) as Hk3. apply keep_cons in Hk3.
        destruct Hk3 as (f' & -> & Hl' & _). rewrite Hl in Hl'.
        assert (Hlen : length vs = length args).
        { pose proof (proj1 (proj2 (proj2 (proj2 (proj2 (proj2 (sound prim tmax None m2)))))) _ _ _ _ _ M2) as [_ Hs].
          exact Hs. }
        assert (Hclo : (match v with VPrim _ => False | _ => True end) -> exists m o st',
          evpair m (EApp e args) env (f :: t) tail = Some (o, st') /\ (o = OTail -> less (S n) r t (tl st'))).
        { intros Hnp. rewrite <- Hlen in Hc.
          destruct (Hca _ _ _ HH Hc Hnp (setbit tail f' :: t) tail) as (m3 & o3 & st3 & M3 & Ho3).
          exists (S (m1 + m2 + m3)), o3, st3. simpl. upm (m1 + m2 + m3). simpl.
          destruct v; try congruence; try contradiction; rewrite <- Hlen, Hc; upm (m1 + m2 + m3); simpl; upm (m1 + m2 + m3);
            (split; [reflexivity|]); intros Hto; specialize (Ho3 Hto);
            change (setbit tail f' :: t) with (settop tail (f' :: t)) in Ho3;
            apply less_pop in Ho3; auto. }
        destruct v; try (apply Hclo; exact I).
        destruct n as [|n0]; [discriminate|]. simpl in HH.
        destruct (IH n0 ltac:(lia)) as (_ & _ & _ & _ & _ & _ & _ & Hr0).
        destruct (Hr0 _ _ _ HH (fresh :: setbit tail f' :: t)) as (m3 & M3).
        exists (S (m1 + m2 + m3)), (ofr r), (setbit tail f' :: t). simpl. upm (m1 + m2 + m3). simpl.
        upm (m1 + m2 + m3). simpl. upm (m1 + m2 + m3).
        split; [reflexivity | destruct r; discriminate]. }
      destruct v; try (apply Hgo; [discriminate | exact H]).
      exists (S m1). simpl. rewrite M1. simpl. eexists _, _. split; [reflexivity | discriminate]. }
  refine (conj _ (conj _ (conj _ (conj _ (conj _ (conj _ (conj _ _))))))); auto.
  - (* ev *)
    intros e env r H st tail.
    destruct e; try (destruct (Hpair _ _ _ H I fresh (settop tail st) tail eq_refl) as (m & o & st' & E & Ho);
      exists (S m), o, (tl st'); simpl; rewrite E;
      (split; [reflexivity|]); intros Hto; subst o;
      specialize (Ho eq_refl);
      pose proof (proj1 (sound prim tmax None (S m))) as Hs;
      match type of E with evpair _ ?x _ _ _ = _ =>
        specialize (Hs x env st tail OTail (tl st')) end;
      simpl in Hs; rewrite E in Hs; specialize (Hs eq_refl);
      destruct Hs as [-> _]; exact Ho).
    + exists 1. simpl. eexists _, _. split; [reflexivity | discriminate].
    + exists 1. simpl. eexists _, _. split; [reflexivity|].
      destruct (nth_error env i) as [[]|]; discriminate.
  - (* body *)
    intros es env r H st tail. destruct n as [|n]; [discriminate|].
    assert (Hn : n < S n) by lia.
    destruct (IH n Hn) as (Hev & Hb & _).
    destruct es as [|e [|e' es]]; simpl in H.
    + exists 1. simpl. eexists _, _. split; [reflexivity | discriminate].
    + destruct (Hev _ _ _ H (settop tail st) tail) as (m & o & st' & E & Ho).
      exists (S m), o, st'. simpl. rewrite E. split; [reflexivity|].
      intros Hto. specialize (Ho Hto). rewrite settop_settop in Ho. eapply less_mono; [|exact Ho]. lia.
    + destruct (dv n e env) as [r1|] eqn:E1; [|discriminate].
      destruct (Harg n Hn _ _ _ (settop false st) E1) as (m1 & st1 & M1 & Hk).
      apply keep_set_l in Hk.
      destruct r1 as [v|].
      * destruct (Hb _ _ _ H st1 tail) as (m2 & o2 & st2 & M2 & Ho2).
        exists (S (m1 + m2)), o2, st2. simpl. upm (m1 + m2). simpl. upm (m1 + m2).
        split; [reflexivity|]. intros Hto. apply (keep_less _ _ _ _ _ Hk).
        eapply less_mono; [|apply Ho2; exact Hto]. lia.
      * exists (S m1). simpl. rewrite M1. simpl. eexists _, _. split; [reflexivity | discriminate].
  - (* and *)
    intros es env v r H st. destruct n as [|n]; [discriminate|].
    assert (Hn : n < S n) by lia.
    destruct (IH n Hn) as (_ & _ & Ha & _).
    destruct es as [|e es]; simpl in H.
    + injection H as <-. exists 1, st. simpl. split; [reflexivity | apply keep_refl].
    + destruct (dv n e env) as [r1|] eqn:E1; [|discriminate].
      destruct (Harg n Hn _ _ _ st E1) as (m1 & st1 & M1 & Hk).
      destruct r1 as [v1|].
      2: { injection H as <-. exists (S m1), st1. simpl. rewrite M1. simpl. split; [reflexivity | exact Hk]. }
      destruct v1; try (destruct (Ha _ _ _ _ H st1) as (m2 & st2 & M2 & Hk2);
        exists (S (m1 + m2)), st2; simpl; upm (m1 + m2); simpl; upm (m1 + m2);
        (split; [reflexivity | eapply keep_trans; eauto])).
      all: injection H as <-; exists (S m1), st1; simpl; rewrite M1; simpl; (split; [reflexivity | exact Hk]).
  - (* let values *)
    intros es env r H st. destruct n as [|n]; [discriminate|].
    assert (Hn : n < S n) by lia.
    destruct (IH n Hn) as (_ & _ & _ & Hle & _).
    destruct es as [|e es]; simpl in H.
    + injection H as <-. exists 1, st. simpl. split; [reflexivity | apply keep_refl].
    + destruct (dv n e env) as [r1|] eqn:E1; [|discriminate].
      destruct (Harg n Hn _ _ _ st E1) as (m1 & st1 & M1 & Hk).
      destruct r1 as [v1|].
      2: { injection H as <-. exists (S m1), st1. simpl. rewrite M1. simpl. split; [reflexivity | exact Hk]. }
      destruct v1.
      4: { injection H as <-; exists (S m1), st1; simpl; rewrite M1; simpl; (split; [reflexivity | exact Hk]). }
      all: destruct (dlets n es env) as [r2|] eqn:E2; [|discriminate];
        destruct (Hle _ _ _ E2 st1) as (m2 & st2 & M2 & Hk2);
        exists (S (m1 + m2)), st2; simpl; upm (m1 + m2); simpl; upm (m1 + m2);
        destruct r2 as [vs|r2]; injection H as <-;
        (split; [reflexivity | eapply keep_trans; eauto]).
  - (* arguments *)
    intros es env r H st. destruct n as [|n]; [discriminate|].
    assert (Hn : n < S n) by lia.
    destruct (IH n Hn) as (_ & _ & _ & _ & Har & _).
    destruct es as [|e es]; simpl in H.
    + injection H as <-. exists 1, st. simpl. split; [reflexivity | apply keep_refl].
    + destruct (dv n e env) as [r1|] eqn:E1; [|discriminate].
      destruct (Harg n Hn _ _ _ st E1) as (m1 & st1 & M1 & Hk).
      destruct r1 as [v1|].
      2: { injection H as <-. exists (S m1), st1. simpl. rewrite M1. simpl. split; [reflexivity | exact Hk]. }
      destruct v1.
      4,5: injection H as <-; exists (S m1), st1; simpl; rewrite M1; simpl; (split; [reflexivity | exact Hk]).
      all: destruct (dargs n es env) as [r2|] eqn:E2; [|discriminate];
        destruct (Har _ _ _ E2 st1) as (m2 & st2 & M2 & Hk2);
        exists (S (m1 + m2)), st2; simpl; upm (m1 + m2); simpl; upm (m1 + m2);
        destruct r2 as [vs|r2]; injection H as <-;
        (split; [reflexivity | eapply keep_trans; eauto]).
Qed.
End Tail.

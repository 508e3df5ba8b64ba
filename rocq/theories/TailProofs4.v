(** * Tail calls: evaluating step by step, counting frames *)

From Coq Require Import ZArith List Bool Arith Lia.
Import ListNotations.
From Verif Require Import TailModel TailSpec TailProofs TailProofs2.

Section Steps.
Variable prim : nat -> list value -> pstep.
Variable tmax : nat.
Variable lim : option nat.

Notation ev := (ev prim tmax lim).
Notation evpair := (evpair prim tmax lim).
Notation evbody := (evbody prim tmax lim).
Notation evand := (evand prim tmax lim).
Notation evlets := (evlets prim tmax lim).
Notation evargs := (evargs prim tmax lim).
Notation call := (call prim tmax lim).
Notation loop := (loop prim tmax lim).
Notation run := (run prim tmax lim).

Ltac upm M :=
  repeat match goal with
  | E : TailModel.ev _ _ _ ?k ?e ?env ?st ?tl = Some ?x |- context [TailModel.ev _ _ _ M ?e ?env ?st ?tl] =>
      rewrite (proj1 (ev_mono_all prim tmax lim k) M e env st tl x ltac:(lia) E)
  | E : TailModel.evpair _ _ _ ?k ?e ?env ?st ?tl = Some ?x |- context [TailModel.evpair _ _ _ M ?e ?env ?st ?tl] =>
      rewrite (proj1 (proj2 (ev_mono_all prim tmax lim k)) M e env st tl x ltac:(lia) E)
  | E : TailModel.evbody _ _ _ ?k ?e ?env ?st ?tl = Some ?x |- context [TailModel.evbody _ _ _ M ?e ?env ?st ?tl] =>
      rewrite (proj1 (proj2 (proj2 (ev_mono_all prim tmax lim k))) M e env st tl x ltac:(lia) E)
  | E : TailModel.evand _ _ _ ?k ?e ?env ?st ?v = Some ?x |- context [TailModel.evand _ _ _ M ?e ?env ?st ?v] =>
      rewrite (proj1 (proj2 (proj2 (proj2 (ev_mono_all prim tmax lim k)))) M e env st v x ltac:(lia) E)
  | E : TailModel.evlets _ _ _ ?k ?e ?env ?st = Some ?x |- context [TailModel.evlets _ _ _ M ?e ?env ?st] =>
      rewrite (proj1 (proj2 (proj2 (proj2 (proj2 (ev_mono_all prim tmax lim k))))) M e env st x ltac:(lia) E)
  | E : TailModel.evargs _ _ _ ?k ?e ?env ?st = Some ?x |- context [TailModel.evargs _ _ _ M ?e ?env ?st] =>
      rewrite (proj1 (proj2 (proj2 (proj2 (proj2 (proj2 (ev_mono_all prim tmax lim k)))))) M e env st x ltac:(lia) E)
  | E : TailModel.call _ _ _ ?k ?fn ?vs ?st ?tl = Some ?x |- context [TailModel.call _ _ _ M ?fn ?vs ?st ?tl] =>
      rewrite (proj1 (proj2 (proj2 (proj2 (proj2 (proj2 (proj2 (ev_mono_all prim tmax lim k))))))) M fn vs st tl x ltac:(lia) E)
  | E : TailModel.loop _ _ _ ?k ?st = Some ?x |- context [TailModel.loop _ _ _ M ?st] =>
      rewrite (proj1 (proj2 (proj2 (proj2 (proj2 (proj2 (proj2 (proj2 (ev_mono_all prim tmax lim k)))))))) M st x ltac:(lia) E)
  | E : TailModel.run _ _ _ ?k ?p ?vs ?st = Some ?x |- context [TailModel.run _ _ _ M ?p ?vs ?st] =>
      rewrite (proj2 (proj2 (proj2 (proj2 (proj2 (proj2 (proj2 (proj2 (ev_mono_all prim tmax lim k)))))))) M p vs st x ltac:(lia) E)
  end.


Definition Ev e env st tail o st' : Prop := exists m, ev m e env st tail = Some (o, st').
Definition Pair e env st tail o st' : Prop := exists m, evpair m e env st tail = Some (o, st').
Definition Body es env st tail o st' : Prop := exists m, evbody m es env st tail = Some (o, st').
Definition And es env st v o st' : Prop := exists m, evand m es env st v = Some (o, st').
Definition Lets es env st (o : list value + out) st' : Prop := exists m, evlets m es env st = Some (o, st').
Definition Args es env st (o : list value + out) st' : Prop := exists m, evargs m es env st = Some (o, st').
Definition Call fn vs st tail o st' : Prop := exists m, call m fn vs st tail = Some (o, st').
Definition Loop st o st' : Prop := exists m, loop m st = Some (o, st').

Definition quiet (v : value) : bool :=
  match v with VVoid | VEmpty | VUnbound => false | _ => true end.

Lemma s_var : forall i v env st tail, nth_error env i = Some v -> quiet v = true ->
  Ev (EVar i) env st tail (OVal v) st.
Proof. intros i v env st tail H Hv. exists 1. simpl. rewrite H. destruct v; try discriminate; reflexivity. Qed.
Lemma s_const : forall v env st tail, Ev (EQ v) env st tail (OVal v) st.
Proof. intros. exists 1. reflexivity. Qed.
Lemma s_deep : forall e env st tail, is_pair e -> room lim st = false -> Ev e env st tail ODeep st.
Proof. intros e env st tail He H. exists 1. destruct e; simpl in He; try contradiction; simpl; rewrite H; reflexivity. Qed.
Lemma s_pair : forall e env st tail o st', is_pair e -> room lim st = true ->
  Pair e env (fresh :: settop tail st) tail o st' -> Ev e env st tail o (tl st').
Proof.
  intros e env st tail o st' He H [m E]. exists (S m).
  destruct e; simpl in He; try contradiction; simpl; rewrite H, E; reflexivity.
Qed.
Lemma s_if : forall a b c env st tail v st1 e o st',
  Ev a env (settop tail st) false (OVal v) st1 -> quiet v = true ->
  (match v with VFalse => match c with Some x => x | None => EQ VVoid end | _ => b end) = e ->
  Ev e env st1 true o st' -> Pair (EIf a b c) env st tail o st'.
Proof.
  intros a b c env st tail v st1 e o st' [m1 E1] Hv <- [m2 E2]. exists (S (m1 + m2)). simpl.
  destruct v; try discriminate; upm (m1 + m2); simpl; upm (m1 + m2); auto.
  destruct c; upm (m1 + m2); auto. destruct m2; simpl in E2; [discriminate | exact E2].
Qed.
Lemma s_when : forall a body env st tail v st1 o st',
  Ev a env (settop tail st) false (OVal v) st1 ->
  (match v with VFalse | VEmpty => false | _ => true end) = true ->
  Body body env st1 (topbit st1) o st' -> Pair (EWhen a body) env st tail o st'.
Proof.
  intros a body env st tail v st1 o st' [m1 E1] Hv [m2 E2]. exists (S (m1 + m2)). simpl.
  destruct v; try discriminate; upm (m1 + m2); simpl; upm (m1 + m2); auto.
Qed.
Lemma s_when_deep : forall a body env st tail st1,
  Ev a env (settop tail st) false ODeep st1 -> Pair (EWhen a body) env st tail ODeep st1.
Proof. intros a body env st tail st1 [m1 E1]. exists (S m1). simpl. rewrite E1. reflexivity. Qed.
Lemma s_and : forall es env st tail o st', And es env (settop tail st) VTrue o st' ->
  Pair (EAnd es) env st tail o st'.
Proof. intros es env st tail o st' [m E]. exists (S m). simpl. exact E. Qed.
Lemma s_and_next : forall e es env st v v1 st1 o st', Ev e env st false (OVal v1) st1 ->
  (match v1 with VFalse | VEmpty => false | _ => true end) = true ->
  And es env st1 v1 o st' -> And (e :: es) env st v o st'.
Proof.
  intros e es env st v v1 st1 o st' [m1 E1] Hv [m2 E2]. exists (S (m1 + m2)). simpl.
  destruct v1; try discriminate; upm (m1 + m2); simpl; upm (m1 + m2); auto.
Qed.
Lemma s_and_deep : forall e es env st v st1, Ev e env st false ODeep st1 -> And (e :: es) env st v ODeep st1.
Proof. intros e es env st v st1 [m1 E1]. exists (S m1). simpl. rewrite E1. reflexivity. Qed.
Lemma s_body1 : forall e env st tail o st', Ev e env (settop tail st) tail o st' ->
  Body [e] env st tail o st'.
Proof. intros e env st tail o st' [m E]. exists (S m). simpl. exact E. Qed.
Lemma s_let1 : forall a body env st tail v st1 o st',
  Ev a env (fresh :: settop tail st) false (OVal v) st1 -> quiet v = true ->
  Body body (v :: env) st1 tail o st' -> Pair (ELet [a] body) env st tail o (tl st').
Proof.
  intros a body env st tail v st1 o st' [m1 E1] Hv [m2 E2]. exists (S (S (S (m1 + m2)))).
  assert (E1' : evlets (S (S (m1 + m2))) [a] env (fresh :: settop tail st) = Some (inl [v], st1)).
  { change (evlets (S (S (m1 + m2))) [a] env (fresh :: settop tail st)) with
      (match ev (S (m1 + m2)) a env (fresh :: settop tail st) false with
       | None => None
       | Some (OVal VVoid, st1) => Some (inr OErr, st1)
       | Some (OVal v, st1) =>
           match evlets (S (m1 + m2)) [] env st1 with
           | None => None
           | Some (inl vs, st2) => Some (inl (v :: vs), st2)
           | Some (inr o, st2) => Some (inr o, st2)
           end
       | Some (OTail, st1) => Some (inr OErr, st1)
       | Some (o, st1) => Some (inr o, st1)
       end).
    upm (S (m1 + m2)). destruct v; try discriminate; reflexivity. }
  change (evpair (S (S (S (m1 + m2)))) (ELet [a] body) env st tail) with
    (match evlets (S (S (m1 + m2))) [a] env (fresh :: settop tail st) with
     | None => None
     | Some (inr o, st1) => Some (o, tl st1)
     | Some (inl vs, st1) =>
         match evbody (S (S (m1 + m2))) body (vs ++ env) st1 tail with
         | None => None
         | Some (o, st2) => Some (o, tl st2)
         end
     end).
  rewrite E1'. change ([v] ++ env) with (v :: env). upm (S (S (m1 + m2))). reflexivity.
Qed.
Lemma s_args_nil : forall env st, Args [] env st (inl []) st.
Proof. intros. exists 1. reflexivity. Qed.
Lemma s_args : forall e es env st v st1 vs st2, Ev e env st false (OVal v) st1 -> quiet v = true ->
  Args es env st1 (inl vs) st2 -> Args (e :: es) env st (inl (v :: vs)) st2.
Proof.
  intros e es env st v st1 vs st2 [m1 E1] Hv [m2 E2]. exists (S (m1 + m2)). simpl.
  destruct v; try discriminate; upm (m1 + m2); simpl; upm (m1 + m2); auto.
Qed.
Lemma s_args_later : forall e es env st v st1 st2, Ev e env st false (OVal v) st1 -> quiet v = true ->
  Args es env st1 (inr ODeep) st2 -> Args (e :: es) env st (inr ODeep) st2.
Proof.
  intros e es env st v st1 st2 [m1 E1] Hv [m2 E2]. exists (S (m1 + m2)). simpl.
  destruct v; try discriminate; upm (m1 + m2); simpl; upm (m1 + m2); auto.
Qed.
Lemma s_args_deep : forall e es env st st1, Ev e env st false ODeep st1 ->
  Args (e :: es) env st (inr ODeep) st1.
Proof. intros e es env st st1 [m1 E1]. exists (S m1). simpl. rewrite E1. reflexivity. Qed.
Lemma s_app_prim : forall p args env st tail vs st2 v,
  Args args env st (inl vs) st2 -> prim p vs = PDone v ->
  Pair (EApp (EQ (VPrim p)) args) env st tail (OVal v) (settop tail st2).
Proof.
  intros p args env st tail vs st2 v [m E] Hp. exists (S (S m)).
  change (evpair (S (S m)) (EApp (EQ (VPrim p)) args) env st tail) with
    (match evargs (S m) args env st with
     | None => None
     | Some (inr o, st2) => Some (o, st2)
     | Some (inl vs, st2) =>
         match run (S m) p vs (fresh :: settop tail st2) with
         | None => None
         | Some (o, st3) => Some (o, tl st3)
         end
     end).
  upm (S m). simpl. rewrite Hp. reflexivity.
Qed.
Lemma s_app_clo : forall f args env st tail k l nt pr b ce st1 vs st2 o st',
  Ev f env st false (OVal (VClo k l nt pr b ce)) st1 -> length args = k ->
  Args args env st1 (inl vs) st2 ->
  Call (VClo k l nt pr b ce) vs (settop tail st2) tail o st' ->
  Pair (EApp f args) env st tail o st'.
Proof.
  intros f args env st tail k l nt pr b ce st1 vs st2 o st' [m1 E1] Hk [m2 E2] [m3 E3].
  exists (S (m1 + m2 + m3)). simpl. upm (m1 + m2 + m3). simpl.
  rewrite (proj2 (Nat.eqb_eq _ _) Hk). upm (m1 + m2 + m3). upm (m1 + m2 + m3). reflexivity.
Qed.
Lemma s_app_deep : forall f args env st tail v st1 st2,
  Ev f env st false (OVal v) st1 -> callable v (length args) = true ->
  Args args env st1 (inr ODeep) st2 -> Pair (EApp f args) env st tail ODeep st2.
Proof.
  intros f args env st tail v st1 st2 [m1 E1] Hk [m2 E2].
  exists (S (m1 + m2)). simpl. upm (m1 + m2).
  destruct v; try discriminate; rewrite Hk; upm (m1 + m2); reflexivity.
Qed.
Lemma s_call_push : forall k l nt pr b ce vs st tail o st',
  (if tail && negb pr then scan tmax (k + l) 0 st else None) = None -> room lim st = true ->
  Loop (lamframe (k + l) (VClo k l nt pr b ce) vs tail :: st) o st' ->
  Call (VClo k l nt pr b ce) vs st tail o (tl st').
Proof.
  intros k l nt pr b ce vs st tail o st' Hs Hr [m E]. exists (S m). simpl. rewrite Hs, Hr, E. reflexivity.
Qed.
Lemma s_call_deep : forall k l nt pr b ce vs st tail,
  (if tail && negb pr then scan tmax (k + l) 0 st else None) = None -> room lim st = false ->
  Call (VClo k l nt pr b ce) vs st tail ODeep st.
Proof.
  intros k l nt pr b ce vs st tail Hs Hr. exists 1. simpl. rewrite Hs, Hr. reflexivity.
Qed.
Lemma s_call_over : forall k l nt pr b ce vs st i f,
  scan tmax (k + l) 0 st = Some i -> pr = false -> nth_error st i = Some f -> k + l <= f_width f ->
  Call (VClo k l nt pr b ce) vs st true OTail (put i (VClo k l nt pr b ce) vs st).
Proof.
  intros k l nt pr b ce vs st i f Hs -> Hn Hw. exists 1. simpl. rewrite Hs, Hn.
  apply Nat.leb_le in Hw. rewrite Hw. reflexivity.
Qed.
Lemma s_loop : forall f t k l nt pr b ce o st', f_fn f = VClo k l nt pr b ce ->
  Body b (f_args f ++ repeat VUnbound l ++ ce) (f :: t) (negb nt) o st' -> o <> OTail ->
  Loop (f :: t) o st'.
Proof.
  intros f t k l nt pr b ce o st' Hf [m E] Ho. exists (S m). rewrite loop_S, Hf, E.
  destruct o; congruence || reflexivity.
Qed.
Lemma s_loop_again : forall f t k l nt pr b ce f1 t1 o st', f_fn f = VClo k l nt pr b ce ->
  Body b (f_args f ++ repeat VUnbound l ++ ce) (f :: t) (negb nt) OTail (f1 :: t1) ->
  f_loop f1 = true -> Loop (noloop f1 :: t1) o st' -> Loop (f :: t) o st'.
Proof.
  intros f t k l nt pr b ce f1 t1 o st' Hf [m1 E1] Hl [m2 E2]. exists (S (m1 + m2)). rewrite loop_S, Hf.
  upm (m1 + m2). rewrite Hl. upm (m1 + m2). reflexivity.
Qed.
End Steps.

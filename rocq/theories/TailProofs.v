(** * Tail calls: lemmas *)

From Coq Require Import ZArith List Bool Arith Lia.
Import ListNotations.
From Verif Require Import TailModel TailSpec.

Section Tail.
Variable prim : nat -> list value -> pstep.
Variable tmax : nat.
Variable lim : option nat.

Notation dv := (dv prim).
Notation dbody := (dbody prim).
Notation dand := (dand prim).
Notation dlets := (dlets prim).
Notation dargs := (dargs prim).
Notation dapp := (dapp prim).
Notation drun := (drun prim).
Notation ev := (ev prim tmax lim).
Notation evpair := (evpair prim tmax lim).
Notation evbody := (evbody prim tmax lim).
Notation evand := (evand prim tmax lim).
Notation evlets := (evlets prim tmax lim).
Notation evargs := (evargs prim tmax lim).
Notation call := (call prim tmax lim).
Notation loop := (loop prim tmax lim).
Notation run := (run prim tmax lim).

(** ** More steps change nothing *)

Ltac grow1 IH H :=
  match type of H with
  | context [match ?x with _ => _ end] =>
      let E := fresh "E" in
      destruct x eqn:E; try discriminate;
      try (eapply IH in E; [rewrite E | lia])
  end.

Lemma d_mono : forall n,
  (forall m e env r, n <= m -> dv n e env = Some r -> dv m e env = Some r) /\
  (forall m es env r, n <= m -> dbody n es env = Some r -> dbody m es env = Some r) /\
  (forall m es env v r, n <= m -> dand n es env v = Some r -> dand m es env v = Some r) /\
  (forall m es env r, n <= m -> dlets n es env = Some r -> dlets m es env = Some r) /\
  (forall m es env r, n <= m -> dargs n es env = Some r -> dargs m es env = Some r) /\
  (forall m fn vs r, n <= m -> dapp n fn vs = Some r -> dapp m fn vs = Some r) /\
  (forall m p vs r, n <= m -> drun n p vs = Some r -> drun m p vs = Some r).
Proof.
  induction n as [| n (IH1 & IH2 & IH3 & IH4 & IH5 & IH6 & IH7)].
  { refine (conj _ (conj _ (conj _ (conj _ (conj _ (conj _ _)))))); intros; discriminate. }
  refine (conj _ (conj _ (conj _ (conj _ (conj _ (conj _ _)))))); intros [|m]; intros; try lia;
    match goal with
    | Hle : S n <= S m, H : _ = Some _ |- _ => rename H into Hr; assert (n <= m) by lia; clear Hle
    end; simpl in Hr |- *;
  repeat first
    [ discriminate | assumption
    | (eapply IH1; [lia | eassumption]) | (eapply IH2; [lia | eassumption])
    | (eapply IH3; [lia | eassumption]) | (eapply IH4; [lia | eassumption])
    | (eapply IH5; [lia | eassumption]) | (eapply IH6; [lia | eassumption])
    | (eapply IH7; [lia | eassumption])
    | match type of Hr with
      | context [match TailSpec.dv _ n ?e ?env with _ => _ end] =>
          let E := fresh "E" in destruct (dv n e env) eqn:E; [|discriminate];
          rewrite (IH1 m e env _ ltac:(lia) E)
      | context [match TailSpec.dlets _ n ?e ?env with _ => _ end] =>
          let E := fresh "E" in destruct (dlets n e env) eqn:E; [|discriminate];
          rewrite (IH4 m e env _ ltac:(lia) E)
      | context [match TailSpec.dargs _ n ?e ?env with _ => _ end] =>
          let E := fresh "E" in destruct (dargs n e env) eqn:E; [|discriminate];
          rewrite (IH5 m e env _ ltac:(lia) E)
      | context [match TailSpec.dapp _ n ?e ?env with _ => _ end] =>
          let E := fresh "E" in destruct (dapp n e env) eqn:E; [|discriminate];
          rewrite (IH6 m e env _ ltac:(lia) E)
      | context [match ?x with _ => _ end] =>
          lazymatch x with context [match _ with _ => _ end] => fail | _ => destruct x eqn:? end
      | TailModel.loop _ _ _ (S n) _ = _ => rewrite loop_S in Hr |- *
      end ].
Qed.

Lemma dv_mono : forall n m e env r, dv n e env = Some r -> n <= m -> dv m e env = Some r.
Proof. intros; eapply d_mono; eauto. Qed.
Lemma dbody_mono : forall n m e env r, dbody n e env = Some r -> n <= m -> dbody m e env = Some r.
Proof. intros; eapply d_mono; eauto. Qed.
Lemma dand_mono : forall n m e env v r, dand n e env v = Some r -> n <= m -> dand m e env v = Some r.
Proof. intros; eapply d_mono; eauto. Qed.
Lemma dlets_mono : forall n m e env r, dlets n e env = Some r -> n <= m -> dlets m e env = Some r.
Proof. intros; eapply d_mono; eauto. Qed.
Lemma dargs_mono : forall n m e env r, dargs n e env = Some r -> n <= m -> dargs m e env = Some r.
Proof. intros; eapply d_mono; eauto. Qed.
Lemma dapp_mono : forall n m e env r, dapp n e env = Some r -> n <= m -> dapp m e env = Some r.
Proof. intros; eapply d_mono; eauto. Qed.
Lemma drun_mono : forall n m e env r, drun n e env = Some r -> n <= m -> drun m e env = Some r.
Proof. intros; eapply d_mono; eauto. Qed.

Lemma loop_S : forall n st, loop (S n) st =
  match st with
  | [] => Some (OErr, st)
  | f :: t =>
      match f_fn f with
      | VClo k l nt pr body env =>
          match evbody n body (f_args f ++ repeat VUnbound l ++ env) st (negb nt) with
          | None => None
          | Some (OTail, f1 :: t1) =>
              if f_loop f1 then loop n (noloop f1 :: t1)
              else Some (OTail, f1 :: t1)
          | Some (o, st1) => Some (o, st1)
          end
      | _ => Some (OErr, st)
      end
  end.
Proof. intros n [|f t]; reflexivity. Qed.

Lemma ev_mono_all : forall n,
  (forall m e env st tail r, n <= m -> ev n e env st tail = Some r -> ev m e env st tail = Some r) /\
  (forall m e env st tail r, n <= m -> evpair n e env st tail = Some r -> evpair m e env st tail = Some r) /\
  (forall m e env st tail r, n <= m -> evbody n e env st tail = Some r -> evbody m e env st tail = Some r) /\
  (forall m e env st v r, n <= m -> evand n e env st v = Some r -> evand m e env st v = Some r) /\
  (forall m e env st r, n <= m -> evlets n e env st = Some r -> evlets m e env st = Some r) /\
  (forall m e env st r, n <= m -> evargs n e env st = Some r -> evargs m e env st = Some r) /\
  (forall m fn vs st tail r, n <= m -> call n fn vs st tail = Some r -> call m fn vs st tail = Some r) /\
  (forall m st r, n <= m -> loop n st = Some r -> loop m st = Some r) /\
  (forall m p vs st r, n <= m -> run n p vs st = Some r -> run m p vs st = Some r).
Proof.
  induction n as [| n (IH1 & IH2 & IH3 & IH4 & IH5 & IH6 & IH7 & IH8 & IH9)].
  { refine (conj _ (conj _ (conj _ (conj _ (conj _ (conj _ (conj _ (conj _ _)))))))); intros; discriminate. }
  refine (conj _ (conj _ (conj _ (conj _ (conj _ (conj _ (conj _ (conj _ _)))))))); intros [|m]; intros; try lia;
    match goal with
    | Hle : S n <= S m, H : _ = Some _ |- _ => rename H into Hr; assert (n <= m) by lia; clear Hle
    end; simpl in Hr |- *;
  repeat first
    [ discriminate | assumption
    | (eapply IH1; [lia | eassumption]) | (eapply IH2; [lia | eassumption])
    | (eapply IH3; [lia | eassumption]) | (eapply IH4; [lia | eassumption])
    | (eapply IH5; [lia | eassumption]) | (eapply IH6; [lia | eassumption])
    | (eapply IH7; [lia | eassumption]) | (eapply IH8; [lia | eassumption])
    | (eapply IH9; [lia | eassumption])
    | match type of Hr with
      | context [match TailModel.ev _ _ _ n ?a ?b ?c ?d with _ => _ end] =>
          let E := fresh "E" in destruct (ev n a b c d) eqn:E; [|discriminate];
          rewrite (IH1 m _ _ _ _ _ ltac:(lia) E)
      | context [match TailModel.evpair _ _ _ n ?a ?b ?c ?d with _ => _ end] =>
          let E := fresh "E" in destruct (evpair n a b c d) eqn:E; [|discriminate];
          rewrite (IH2 m _ _ _ _ _ ltac:(lia) E)
      | context [match TailModel.evbody _ _ _ n ?a ?b ?c ?d with _ => _ end] =>
          let E := fresh "E" in destruct (evbody n a b c d) eqn:E; [|discriminate];
          rewrite (IH3 m _ _ _ _ _ ltac:(lia) E)
      | context [match TailModel.evlets _ _ _ n ?a ?b ?c with _ => _ end] =>
          let E := fresh "E" in destruct (evlets n a b c) eqn:E; [|discriminate];
          rewrite (IH5 m _ _ _ _ ltac:(lia) E)
      | context [match TailModel.evargs _ _ _ n ?a ?b ?c with _ => _ end] =>
          let E := fresh "E" in destruct (evargs n a b c) eqn:E; [|discriminate];
          rewrite (IH6 m _ _ _ _ ltac:(lia) E)
      | context [match TailModel.call _ _ _ n ?a ?b ?c ?d with _ => _ end] =>
          let E := fresh "E" in destruct (call n a b c d) eqn:E; [|discriminate];
          rewrite (IH7 m _ _ _ _ _ ltac:(lia) E)
      | context [match TailModel.loop _ _ _ n ?a with _ => _ end] =>
          let E := fresh "E" in destruct (loop n a) eqn:E; [|discriminate];
          rewrite (IH8 m _ _ ltac:(lia) E)
      | context [match TailModel.run _ _ _ n ?a ?b ?c with _ => _ end] =>
          let E := fresh "E" in destruct (run n a b c) eqn:E; [|discriminate];
          rewrite (IH9 m _ _ _ _ ltac:(lia) E)
      | context [match ?x with _ => _ end] =>
          lazymatch x with context [match _ with _ => _ end] => fail | _ => destruct x eqn:? end
      | TailModel.loop _ _ _ (S n) _ = _ => rewrite loop_S in Hr |- *
      end ].
Qed.
End Tail.

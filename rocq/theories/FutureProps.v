(* C126, C127: promises forced by several threads *)

From Coq Require Import List Arith Bool Lia.
Import ListNotations.
From Verif Require Import FutureModel FutureProofs.

(* Schedules, to show particular executions. *)
Inductive cmd := Force (t : nat) | Go (t : nat) (o : outcome).

Definition can_force (l : list pc) : bool :=
  match l with [] => true | H1 :: _ => true | _ => false end.

Definition run1 (c : cmd) (s : state) : option state :=
  match c with
  | Force t =>
      if can_force (th s t)
      then Some {| sh := sh s; th := upd (th s) t (Check1 :: th s t); log := log s |}
      else None
  | Go t o =>
      match th s t with
      | [] => None
      | p :: b =>
          match act t o p (sh s) with
          | None => None
          | Some (h', Next p') => Some {| sh := h'; th := upd (th s) t (p' :: b); log := log s |}
          | Some (h', Ret r) => Some {| sh := h'; th := upd (th s) t b; log := log s ++ [(t, r)] |}
          end
      end
  end.

Fixpoint run (cs : list cmd) (s : state) : option state :=
  match cs with
  | [] => Some s
  | c :: cs' => match run1 c s with Some s1 => run cs' s1 | None => None end
  end.

Lemma run1_step : forall c s s', run1 c s = Some s' -> step s s'.
Proof.
  intros [t|t o] s s' E; cbn in E.
  - destruct (can_force (th s t)) eqn:C; [|discriminate]. inversion E; subst.
    apply step_force. destruct (th s t) as [|p b]; [now left|]. destruct p; try discriminate. right; eauto.
  - destruct (th s t) as [|p b] eqn:T; [discriminate|].
    destruct (act t o p (sh s)) as [[h' [p'|r]]|] eqn:A; inversion E; subst.
    + eapply step_next; eauto.
    + eapply step_ret; eauto.
Qed.

Lemma steps_trans : forall a b c, steps a b -> steps b c -> steps a c.
Proof. intros a b c X Y. induction Y as [s|s s1 s2 Y1 IH Y2]; [exact X|].
  exact (steps_more _ _ _ (IH X) Y2). Qed.

Lemma run_steps : forall cs s s', run cs s = Some s' -> steps s s'.
Proof.
  induction cs as [|c cs IH]; intros s s' E; cbn in E.
  - inversion E; constructor.
  - destruct (run1 c s) as [s1|] eqn:R; [|discriminate].
    apply steps_trans with s1; [|eauto].
    eapply steps_more; [constructor|]. now apply run1_step with c.
Qed.

Lemma run_view : forall A (f : state -> A) cs v,
  option_map f (run cs init) = Some v -> exists s, run cs init = Some s /\ reachable s /\ f s = v.
Proof.
  intros A f cs v E. destruct (run cs init) as [s|] eqn:R; [|discriminate].
  exists s. inversion E. repeat split. exact (run_steps _ _ _ R).
Qed.

(* Steps of one thread: from the call to the value. *)
Definition full (t : nat) (o : outcome) : list cmd := Force t :: repeat (Go t o) 12.

(** * C126 *)

(** However many threads force a promise, however their steps interleave, and
    even if the delayed expression forces it itself, the expression is
    evaluated at most once. *)
Theorem C126_once : forall s, reachable s -> evals (sh s) <= 1 /\ length (outs (sh s)) <= evals (sh s).
Proof.
  intros s R. destruct (inv_reachable s R) as [g I]. pose proof (i_fields _ _ I) as F.
  destruct g; cbn in F; destruct F as (_ & _ & -> & ->); cbn; lia.
Qed.
Print Assumptions C126_once.

(** A call of FORCE returns only when the evaluation has ended, and returns
    its outcome (the value, or the exception object) or an error, never the
    default or nothing; so all values ever returned are the same. *)
Theorem C126_value : forall s t r, reachable s -> In (t, r) (log s) ->
  exists o, outs (sh s) = [o] /\ (r = RErr \/ r = RVal (rep o)).
Proof. intros s t r R I. destruct (inv_reachable s R) as [g V]. exact (i_log _ _ V t r I). Qed.
Print Assumptions C126_value.

(** Once final, the promise keeps its value. *)
Theorem C126_stable : forall s s', reachable s -> steps s s' -> fin (sh s) = true ->
  exists o, outs (sh s) = [o] /\ value (sh s) = Some (rep o) /\
    outs (sh s') = [o] /\ value (sh s') = Some (rep o) /\ fin (sh s') = true.
Proof.
  intros s s' R ST FN. destruct (inv_reachable s R) as [g I].
  destruct (inv_steps _ _ _ I ST) as (g' & LE & I').
  pose proof (i_fields _ _ I) as F. pose proof (i_fields _ _ I') as F'.
  destruct g; cbn in F; destruct F as (F1 & F2 & F3 & F4); try congruence.
  destruct g'; cbn in LE; try contradiction. subst. cbn in F'.
  destruct F' as (G1 & G2 & G3 & G4). eauto 8.
Qed.
Print Assumptions C126_stable.

Lemma settled_inv : forall s t v s2, reachable s -> steps s s2 ->
  fin (sh s) = true -> value (sh s) = Some v -> th s t = [] ->
  (th s2 t = [] \/ th s2 t = [Check1] \/ th s2 t = [Check1b]) /\
  exists new, log s2 = log s ++ new /\ forall r, In (t, r) new -> r = RVal v.
Proof.
  intros s t v s2 R ST FN VA IDLE.
  assert (SET : forall x, steps s x -> fin (sh x) = true /\ value (sh x) = Some v).
  { intros x SX. destruct (C126_stable _ _ R SX FN) as (o & _ & A & _ & B & C). split; congruence. }
  induction ST as [s|s s1 s2 S1 IH S2].
  - split; [now left|]. exists []. rewrite app_nil_r. split; [reflexivity|]. intros r [].
  - specialize (IH R FN VA IDLE SET). destruct IH as (TH & new & LG & NEW).
    destruct (SET s1 S1) as [F1 V1].
    destruct S2 as [x u|x u o p b h' p' TU A|x u o p b h' r TU A]; cbn [th log sh] in *.
    + split; [|exists new; auto].
      destruct (Nat.eq_dec t u) as [<- |NE]; [|now rewrite upd_other].
      rewrite upd_same. destruct TH as [-> | [E|E]]; [auto| |]; rewrite E in H;
        destruct H as [H|[b H]]; discriminate.
    + split; [|exists new; auto].
      destruct (Nat.eq_dec t u) as [<- |NE]; [|now rewrite upd_other].
      rewrite upd_same. rewrite TU in TH. destruct TH as [E|[E|E]]; [discriminate| |];
        inversion E; subst; cbn in A.
      * rewrite V1 in A. inversion A; subst. auto.
      * rewrite F1 in A. discriminate.
    + split.
      * destruct (Nat.eq_dec t u) as [<- |NE]; [|now rewrite upd_other].
        rewrite upd_same. rewrite TU in TH. destruct TH as [E|[E|E]]; inversion E; subst; auto.
      * exists (new ++ [(u, r)]). split; [now rewrite LG, app_assoc|].
        intros r' IR. apply in_app_or in IR. destruct IR as [IR|[IR|[]]]; [auto|].
        inversion IR; subst. rewrite TU in TH. destruct TH as [E|[E|E]]; [discriminate| |];
          inversion E; subst; cbn in A.
        -- discriminate.
        -- rewrite F1 in A. inversion A; subst. unfold rd. now rewrite V1.
Qed.

(** A call of FORCE begun when the promise is final returns the promise's
    value, whatever other threads do, after two steps neither of which waits
    for the lock. *)
Theorem C126_settled : forall s t s2,
  reachable s -> fin (sh s) = true -> th s t = [] -> steps s s2 ->
  exists o new, outs (sh s) = [o] /\ log s2 = log s ++ new /\
    (forall r, In (t, r) new -> r = RVal (rep o)) /\
    (forall p b, th s2 t = p :: b -> (p = Check1 \/ p = Check1b) /\
       forall o', act t o' p (sh s2) <> None).
Proof.
  intros s t s2 R FN IDLE ST.
  destruct (C126_stable s s R (steps_refl s) FN) as (o & O & V & _).
  destruct (settled_inv s t (rep o) s2 R ST FN V IDLE) as (TH & new & LG & NEW).
  exists o, new. repeat split; auto.
  - destruct TH as [E|[E|E]]; rewrite E in H; inversion H; auto.
  - intros o'. destruct TH as [E|[E|E]]; rewrite E in H; inversion H; subst; cbn; discriminate.
Qed.
Print Assumptions C126_settled.

(** As long as the delayed expression does not force its own promise, threads
    forcing it are not stuck: if any thread is in FORCE, some thread can make
    a step. *)
Theorem C126_progress : forall s t,
  reachable s -> (forall u, length (th s u) <= 1) -> th s t <> [] ->
  exists u o p, th s u = [p] /\ act u o p (sh s) <> None.
Proof.
  intros s t R ONE NE. destruct (inv_reachable s R) as [g I].
  destruct (lock (sh s)) as [u|] eqn:LK.
  - pose proof (i_lock _ _ I u) as NL. rewrite LK, Nat.eqb_refl in NL.
    destruct (th s u) as [|p b] eqn:TU; [discriminate|].
    pose proof (ONE u) as L1. rewrite TU in L1. destruct b; [|cbn in L1; lia].
    exists u, None, p. split; [exact TU|].
    rewrite nlocked_cons in NL. destruct p; cbn in NL; try discriminate; cbn; discriminate.
  - destruct (th s t) as [|p b] eqn:TT; [congruence|].
    pose proof (ONE t) as L1. rewrite TT in L1. destruct b; [|cbn in L1; lia].
    exists t, None, p. split; [exact TT|].
    destruct p; cbn; rewrite ?LK; discriminate.
Qed.
Print Assumptions C126_progress.

(* Threads 0 and 1 force a promise in turn, thread 2 while 0 evaluates; it
   waits for the lock. *)
Example C126_case : exists s,
  run (full 0 (Some 7) ++ [Force 1; Go 1 None; Go 1 None]) init = Some s /\
  evals (sh s) = 1 /\ fin (sh s) = true /\ th s 1 = [] /\
  log s = [(0, RVal (V 7)); (1, RVal (V 7))].
Proof.
  destruct (run_view _ (fun s => (evals (sh s), fin (sh s), th s 1, log s))
    (full 0 (Some 7) ++ [Force 1; Go 1 None; Go 1 None]) _ ltac:(vm_compute; reflexivity)) as (s & R & _ & E).
  exists s. split; [exact R|]. inversion E. repeat split.
Qed.

Example C126_waiting_case : exists s,
  run ([Force 0] ++ repeat (Go 0 None) 6 ++ [Force 2] ++ repeat (Go 2 None) 3) init = Some s /\
  th s 0 = [H1] /\ th s 2 = [Ch2] /\ act 2 None Ch2 (sh s) = None /\
  act 0 (Some 3) H1 (sh s) <> None.
Proof.
  destruct (run_view _ (fun s => (th s 0, th s 2, lock (sh s)))
    ([Force 0] ++ repeat (Go 0 None) 6 ++ [Force 2] ++ repeat (Go 2 None) 3) _ ltac:(vm_compute; reflexivity))
    as (s & R & _ & E).
  exists s. split; [exact R|]. inversion E as [[E1 E2 E3]]. rewrite E1, E2. cbn. rewrite E3.
  repeat split; discriminate.
Qed.

(** * C127 *)

(* At most one call of FORCE is going on. *)
Definition one (s : state) : Prop :=
  exists t, length (th s t) <= 1 /\ forall u, u <> t -> th s u = [].

(* Reached without calls of FORCE ever overlapping. *)
Inductive alone : state -> Prop :=
| alone_init : alone init
| alone_step : forall s s', alone s -> step s s' -> one s' -> alone s'.

Lemma alone_reachable : forall s, alone s -> reachable s.
Proof. intros s A; induction A; [constructor|]. eapply steps_more; eauto. Qed.

Definition late (p : pc) : Prop :=
  match p with H2 _ | H3 | H4 _ | Ch5 _ => True | _ => False end.

Definition SP (h : shared) (l : list (nat * res)) (p : pc) : Prop :=
  match p with
  | Check2 | Ch1 | Ch2 | Ch3 => value h = None
  | LockRead | InRead | Ch3e => False
  | H2 _ | H3 | H4 _ | Ch5 _ => l = []
  | _ => True
  end.

Lemma one_quiet : forall g s t p, Inv g s -> one s -> th s t = [p] -> runs p = false -> ~ busy g.
Proof.
  intros g s t p I (u & L & O) TH RP B.
  destruct (i_busy _ _ I B) as (x & q & IQ & RQ).
  assert (t = u) by (destruct (Nat.eq_dec t u) as [E|E]; [exact E|]; rewrite (O t E) in TH; discriminate).
  subst u. assert (x = t) by (destruct (Nat.eq_dec x t) as [E|E]; [exact E|]; rewrite (O x E) in IQ; destruct IQ).
  subst x. rewrite TH in IQ. destruct IQ as [<- | []]. congruence.
Qed.

Lemma alone_one : forall s, alone s -> one s.
Proof. intros s A; destruct A; [|assumption]. exists 0. cbn. split; auto. Qed.

Lemma one_stack : forall s t p b, one s -> th s t = p :: b -> b = [].
Proof.
  intros s t p b (u & L & O) TH.
  assert (t = u) by (destruct (Nat.eq_dec t u) as [E|E]; [exact E|]; rewrite (O t E) in TH; discriminate).
  subst u. rewrite TH in L. destruct b; [reflexivity|cbn in L; lia].
Qed.

Lemma one_other : forall s t u p b, one s -> th s t = p :: b -> u <> t -> th s u = [].
Proof.
  intros s t u p b (x & L & O) TH NE.
  assert (t = x) by (destruct (Nat.eq_dec t x) as [E|E]; [exact E|]; rewrite (O t E) in TH; discriminate).
  subst x. auto.
Qed.

Definition first_only (l : list (nat * res)) : Prop :=
  forall pre t r post, l = pre ++ (t, r) :: post -> (r = RErr <-> pre = []).

Record Solo (s : state) : Prop := {
  so_pcs : forall t p, In p (th s t) -> SP (sh s) (log s) p;
  so_err : forall t, In (t, RErr) (log s) -> outs (sh s) = [None];
  so_first : outs (sh s) = [None] -> first_only (log s);
  so_late : outs (sh s) = [None] -> log s = [] -> exists t p, th s t = [p] /\ late p }.

Lemma first_only_snoc : forall l t r, first_only l -> (r = RErr <-> l = []) -> first_only (l ++ [(t, r)]).
Proof.
  intros l t r F E pre u q post EQ.
  destruct (exists_last (l := (u, q) :: post) ltac:(discriminate)) as (m & x & EM).
  rewrite EM, app_assoc in EQ. apply app_inj_tail in EQ. destruct EQ as [EL EX]. subst x.
  destruct m as [|y m].
  - cbn in EM. inversion EM; subst. rewrite app_nil_r in *. exact E.
  - cbn in EM. inversion EM; subst. exact (F pre u q m eq_refl).
Qed.

Lemma alone_inv : forall s, alone s -> Solo s.
Proof.
  intros s A. induction A as [|s s' A IH ST ON].
  - constructor; cbn.
    + intros t p [].
    + intros t [].
    + discriminate.
    + discriminate.
  - pose proof (alone_one _ A) as ON0.
    destruct (inv_reachable _ (alone_reachable _ A)) as [g I].
    assert (R' : reachable s') by (eapply steps_more; [exact (alone_reachable _ A)|exact ST]).
    destruct (inv_reachable _ R') as [g' I'].
    pose proof (i_fields _ _ I) as F. pose proof (i_fields _ _ I') as F'.
    assert (KEEP : forall o, outs (sh s) = [o] -> outs (sh s') = [o]).
    { intros o O. destruct (inv_step _ _ _ I ST) as (g2 & LE & I2).
      exact (outs_le _ _ _ _ _ F (i_fields _ _ I2) LE O). }
    (* with a result, the outcome was there before *)
    assert (BACK : log s <> [] -> outs (sh s') = [None] -> outs (sh s) = [None]).
    { intros NE O'. destruct (log s) as [|[t r] l] eqn:LG; [congruence|].
      destruct (i_log _ _ I t r ltac:(rewrite LG; now left)) as (o & O & _).
      rewrite (KEEP o O) in O'. congruence. }
    assert (FIRST : outs (sh s') = [None] -> first_only (log s)).
    { intros O'. destruct (log s) as [|x l] eqn:LG.
      - intros pre t r post E. destruct pre; discriminate.
      - rewrite <- LG. apply (so_first _ IH). apply BACK; [congruence|exact O']. }
    destruct ST as [s t H|s t o p b h' p' TH AC|s t o p b h' r TH AC]; cbn [sh th log] in *.
    + constructor; cbn [sh th log].
      * intros u q IQ. destruct (Nat.eq_dec u t) as [-> |NE].
        -- rewrite upd_same in IQ. destruct IQ as [<- | IQ]; [exact Logic.I|]. exact (so_pcs _ IH _ _ IQ).
        -- rewrite upd_other in IQ by assumption. exact (so_pcs _ IH _ _ IQ).
      * intros u IN. exact (so_err _ IH u IN).
      * exact FIRST.
      * intros O L. destruct (so_late _ IH O L) as (u & q & TU & LQ). exfalso.
        destruct (Nat.eq_dec u t) as [-> |NE].
        -- rewrite TU in H. destruct H as [H|[b H]]; [discriminate|]. inversion H; subst. exact LQ.
        -- assert (X : upd (th s) t (Check1 :: th s t) u = []).
           { apply (one_other _ t u Check1 (th s t) ON); [cbn; apply upd_same|exact NE]. }
           rewrite upd_other in X by assumption. congruence.
    + pose proof (one_stack _ _ _ _ ON0 TH) as ->.
      assert (SPp : SP (sh s) (log s) p) by (apply (so_pcs _ IH t); rewrite TH; now left).
      pose proof (i_pcs _ _ I t p ltac:(rewrite TH; now left)) as OK.
      assert (P' : SP h' (log s) p').
      { destruct p; cbn [act] in AC; cbn in SPp; try contradiction.
        * inversion AC; subst. destruct (value (sh s)) eqn:E; cbn; auto.
        * pose proof (one_quiet _ _ _ _ I ON0 TH eq_refl) as Q.
          destruct g; cbn in OK, Q, F; try contradiction; try (exfalso; now apply Q).
          destruct F as (F1 & F2 & _). rewrite F2 in AC. discriminate.
        * rewrite SPp in AC. inversion AC; subst. exact SPp.
        * destruct (fin (sh s)); inversion AC; subst. exact SPp.
        * destruct (lock (sh s)); inversion AC; subst. exact SPp.
        * pose proof (one_quiet _ _ _ _ I ON0 TH eq_refl) as Q.
          inversion AC; subst.
          destruct g; cbn in Q, F; try (exfalso; now apply Q);
            destruct F as (F1 & F2 & _); [rewrite F2; exact Logic.I|congruence].
        * inversion AC; subst; exact Logic.I.
        * inversion AC; subst. cbn in OK. subst g. cbn in F. destruct F as (_ & _ & _ & O0). cbn.
          destruct (log s) as [|[u r] l] eqn:LG; [reflexivity|].
          destruct (i_log _ _ I u r ltac:(rewrite LG; now left)) as (o1 & O1 & _). congruence.
        * inversion AC; subst. destruct o0; exact SPp.
        * inversion AC; subst; exact SPp.
        * inversion AC; subst; exact SPp.
        * destruct ok; inversion AC; subst; exact Logic.I.
        * inversion AC; subst. destruct (value (sh s)); exact Logic.I.
        * destruct (fin (sh s)); inversion AC; subst; exact Logic.I.
        * destruct (value (sh s)); inversion AC; subst; exact Logic.I.
        * destruct (lock (sh s)); inversion AC; subst; exact Logic.I.
        * discriminate. }
      constructor; cbn [sh th log].
      * intros u q IQ. destruct (Nat.eq_dec u t) as [-> |NE].
        -- rewrite upd_same in IQ. destruct IQ as [<- | []]. exact P'.
        -- rewrite upd_other in IQ by assumption. rewrite (one_other _ _ _ _ _ ON0 TH NE) in IQ. destruct IQ.
      * intros u IN. exact (KEEP _ (so_err _ IH u IN)).
      * exact FIRST.
      * intros O L. exists t, p'. rewrite upd_same. split; [reflexivity|].
        assert (WAS : outs (sh s) = [None] -> late p).
        { intros O0. destruct (so_late _ IH O0 L) as (u & q & TU & LQ).
          destruct (Nat.eq_dec u t) as [-> |NE].
          - rewrite TH in TU. inversion TU; subst. exact LQ.
          - rewrite (one_other _ _ _ _ _ ON0 TH NE) in TU. discriminate. }
        destruct p; cbn [act] in AC; cbn in SPp, WAS; try contradiction;
          try (repeat match type of AC with context [match ?x with _ => _ end] => destruct x end;
               try discriminate; inversion AC; subst; cbn in O |- *;
               first [exact Logic.I | elim (WAS O)]).
        cbn in OK. destruct OK as (o1 & -> & S1). cbn in F. destruct F as (_ & _ & _ & F4).
        rewrite F4 in O. inversion O; subst. discriminate.
    + pose proof (one_stack _ _ _ _ ON0 TH) as ->.
      assert (SPp : SP (sh s) (log s) p) by (apply (so_pcs _ IH t); rewrite TH; now left).
      pose proof (i_pcs _ _ I t p ltac:(rewrite TH; now left)) as OK.
      assert (NLATE : outs (sh s) = [None] -> log s = [] -> late p).
      { intros O0 L. destruct (so_late _ IH O0 L) as (u & q & TU & LQ).
        destruct (Nat.eq_dec u t) as [-> |NE].
        - rewrite TH in TU. inversion TU; subst. exact LQ.
        - rewrite (one_other _ _ _ _ _ ON0 TH NE) in TU. discriminate. }
      assert (RET : (r = RErr -> outs h' = [None]) /\ (outs h' = [None] -> (r = RErr <-> log s = []))).
      { destruct p; cbn [act] in AC; cbn in SPp, NLATE; try contradiction; try discriminate.
        * destruct (fin (sh s)); inversion AC; subst. unfold rd.
          destruct (value (sh s)) eqn:E; (split; [discriminate|]); intros O;
            (split; [discriminate|intros L; elim (NLATE O L)]).
        * pose proof (one_quiet _ _ _ _ I ON0 TH eq_refl) as Q.
          destruct g; cbn in Q, F; try (exfalso; now apply Q);
            destruct F as (F1 & F2 & _); [rewrite F2 in AC; discriminate|congruence].
        * destruct (lock (sh s)); discriminate.
        * cbn in OK. destruct OK as (o1 & -> & ->). cbn in F. destruct F as (F1 & F2 & F3 & F4).
          destruct o1; inversion AC; subst. cbn. split; [auto|]. intros _. split; auto.
        * cbn in OK. destruct OK as (o1 & -> & S1). cbn in F. destruct F as (F1 & F2 & F3 & F4).
          destruct (fin (sh s)); inversion AC; subst. unfold rd. rewrite F1.
          split; [discriminate|]. intros O. rewrite F4 in O. inversion O; subst. discriminate.
        * cbn in OK. destruct OK as (o1 & -> & S1). cbn in F. destruct F as (F1 & F2 & F3 & F4).
          rewrite F1 in AC. discriminate.
        * destruct (lock (sh s)); discriminate.
        * cbn in OK. destruct OK as (o1 & -> & S1). cbn in F. destruct F as (F1 & F2 & F3 & F4).
          inversion AC; subst. unfold rd. rewrite F1. cbn.
          split; [discriminate|]. intros O. rewrite F4 in O. inversion O; subst. discriminate. }
      destruct RET as [RET1 RET2].
      constructor; cbn [sh th log].
      * intros u q IQ. destruct (Nat.eq_dec u t) as [-> |NE].
        -- rewrite upd_same in IQ. destruct IQ.
        -- rewrite upd_other in IQ by assumption. rewrite (one_other _ _ _ _ _ ON0 TH NE) in IQ. destruct IQ.
      * intros u IN. apply in_app_or in IN. destruct IN as [IN|[IN|[]]]; [exact (KEEP _ (so_err _ IH u IN))|].
        inversion IN; subst. now apply RET1.
      * intros O. apply first_only_snoc; auto.
      * intros _ L. destruct (log s); discriminate.
Qed.

(** If calls of FORCE never overlap and the evaluation succeeds, every call
    returns its value; if it fails, the first call returns an error and all
    others the exception object. *)
Theorem C127_alone_partial : forall s, alone s -> log s <> [] ->
  (exists n, outs (sh s) = [Some n] /\ forall t r, In (t, r) (log s) -> r = RVal (V n)) \/
  (outs (sh s) = [None] /\
   exists t l, log s = (t, RErr) :: l /\ forall u r, In (u, r) l -> r = RVal Exn).
Proof.
  intros s A NE. pose proof (alone_inv s A) as I.
  destruct (log s) as [|[t0 r0] l] eqn:LG; [congruence|].
  assert (V : forall u r, In (u, r) (log s) -> exists o, outs (sh s) = [o] /\ (r = RErr \/ r = RVal (rep o)))
    by (intros u r IN; exact (C126_value s u r (alone_reachable _ A) IN)).
  destruct (V t0 r0 ltac:(rewrite LG; now left)) as (o & O & _).
  destruct o as [n|].
  - left. exists n. split; [exact O|]. intros t r IN. rewrite <- LG in IN.
    destruct (V t r IN) as (o & O' & [-> | ->]).
    + pose proof (so_err _ I t IN). congruence.
    + replace o with (Some n) by congruence. reflexivity.
  - right. split; [exact O|]. pose proof (so_first _ I O) as FO. rewrite LG in FO.
    assert (r0 = RErr) by (apply (FO [] t0 r0 l eq_refl); reflexivity). subst r0.
    exists t0, l. split; [reflexivity|]. intros u r IN.
    destruct (V u r ltac:(rewrite LG; now right)) as (o & O' & [-> | ->]).
    + destruct (in_split _ _ IN) as (l1 & l2 & ->).
      pose proof (proj1 (FO ((t0, RErr) :: l1) u RErr l2 eq_refl) eq_refl). discriminate.
    + replace o with (@None nat) by congruence. reflexivity.
Qed.
Print Assumptions C127_alone_partial.

(* The thread [t] makes all the steps and has never more than one call. *)
Fixpoint solo (t : nat) (cs : list cmd) (s : state) : bool :=
  match cs with
  | [] => true
  | c :: cs' =>
      (match c with Force u => u =? t | Go u _ => u =? t end) &&
      match run1 c s with
      | Some s1 => (length (th s1 t) <=? 1) && solo t cs' s1
      | None => false
      end
  end.

Lemma run_alone : forall t cs s s',
  alone s -> (forall u, u <> t -> th s u = []) -> solo t cs s = true ->
  run cs s = Some s' -> alone s'.
Proof.
  induction cs as [|c cs IH]; intros s s' A O F R; cbn in R, F.
  - inversion R; now subst.
  - destruct (run1 c s) as [s1|] eqn:R1; [|discriminate].
    apply andb_prop in F. destruct F as [FC F]. apply andb_prop in F. destruct F as [L1 F].
    apply Nat.leb_le in L1.
    assert (O1 : forall u, u <> t -> th s1 u = []).
    { intros u NE. destruct c as [x|x o]; cbn in R1, FC; apply Nat.eqb_eq in FC; subst x.
      - destruct (can_force (th s t)); inversion R1; cbn. rewrite upd_other; auto.
      - destruct (th s t); [discriminate|].
        destruct (act _ _ _ _) as [[h' [p'|r]]|]; inversion R1; cbn; rewrite upd_other; auto. }
    apply IH with s1; auto.
    apply alone_step with s; auto; [now apply run1_step with c|]. exists t. auto.
Qed.

Example C127_alone_case : exists s, alone s /\
  log s = [(0, RVal (V 7)); (0, RVal (V 7))].
Proof.
  destruct (run_view _ log (full 0 (Some 7) ++ [Force 0; Go 0 None; Go 0 None]) _ ltac:(vm_compute; reflexivity))
    as (s & R & _ & E).
  exists s. split; [|exact E].
  apply (run_alone 0 (full 0 (Some 7) ++ [Force 0; Go 0 None; Go 0 None]) init); auto.
  constructor.
Qed.

(** A promise whose evaluation succeeds may give an error to a thread which
    forces it while another thread evaluates it. *)
Theorem C127_concurrent_refuted :
  exists s, reachable s /\ outs (sh s) = [Some 7] /\
    log s = [(1, RErr); (0, RVal (V 7))].
Proof.
  destruct (run_view _ (fun s => (outs (sh s), log s)) ([Force 0; Force 1] ++ repeat (Go 0 None) 6 ++ repeat (Go 1 None) 3
      ++ repeat (Go 0 (Some 7)) 4 ++ repeat (Go 1 None) 3 ++ repeat (Go 0 None) 2) _ ltac:(vm_compute; reflexivity))
    as (s & _ & R & E).
  exists s. inversion E. auto.
Qed.
Print Assumptions C127_concurrent_refuted.

(** A promise whose evaluation fails gives an error when it is forced the first
    time and the exception object as a value when it is forced again. *)
Theorem C127_again_refuted :
  exists s, reachable s /\ outs (sh s) = [None] /\ log s = [(0, RErr); (0, RVal Exn)].
Proof.
  destruct (run_view _ (fun s => (outs (sh s), log s)) (Force 0 :: repeat (Go 0 None) 11 ++ [Force 0; Go 0 None; Go 0 None]) _ ltac:(vm_compute; reflexivity))
    as (s & _ & R & E).
  exists s. inversion E. auto.
Qed.
Print Assumptions C127_again_refuted.

(** If the delayed expression forces its own promise, the thread waits for
    ever for the lock it holds, and no thread ever gets a result. *)
Theorem C127_self_refuted :
  exists s t, reachable s /\ th s t = [Ch2; H1] /\
    forall s', steps s s' -> th s' t = [Ch2; H1] /\ log s' = [].
Proof.
  assert (E : exists s, run ([Force 0] ++ repeat (Go 0 None) 6 ++ [Force 0] ++ repeat (Go 0 None) 3) init = Some s
     /\ th s 0 = [Ch2; H1]).
  { destruct (run_view _ (fun s => th s 0)
      ([Force 0] ++ repeat (Go 0 None) 6 ++ [Force 0] ++ repeat (Go 0 None) 3) _ ltac:(vm_compute; reflexivity))
      as (s & R & _ & E). eauto. }
  destruct E as (s & RN & TH). exists s, 0.
  assert (R : reachable s) by (eapply run_steps; exact RN).
  split; [exact R|]. split; [exact TH|].
  intros s' ST.
  assert (X : th s' 0 = [Ch2; H1]).
  { clear RN. induction ST as [s|s s1 s2 S1 IH S2]; [exact TH|].
    specialize (IH TH R). assert (R1 : reachable s1) by (eapply steps_trans; eauto).
    destruct (inv_reachable _ R1) as [g I].
    assert (LK : lock (sh s1) = Some 0).
    { apply (owner g s1 0 H1 I); [rewrite IH; right; now left|reflexivity]. }
    destruct S2 as [x u H|x u o p b h' p' TU A|x u o p b h' r TU A]; cbn [th];
      (destruct (Nat.eq_dec 0 u) as [<- |NE]; [|now rewrite upd_other]).
    - rewrite IH in H. destruct H as [H|[b H]]; discriminate.
    - rewrite IH in TU. inversion TU; subst. cbn in A. rewrite LK in A. discriminate.
    - rewrite IH in TU. inversion TU; subst. cbn in A. rewrite LK in A. discriminate. }
  split; [exact X|].
  assert (R' : reachable s') by (eapply steps_trans; eauto).
  destruct (inv_reachable _ R') as [g I].
  pose proof (i_pcs _ _ I 0 H1 ltac:(rewrite X; right; now left)) as G. cbn in G. subst g.
  pose proof (i_fields _ _ I) as F. cbn in F. destruct F as (_ & _ & _ & O).
  destruct (log s') as [|[t r] l] eqn:LG; [reflexivity|].
  destruct (i_log _ _ I t r ltac:(rewrite LG; now left)) as (o & O' & _). congruence.
Qed.
Print Assumptions C127_self_refuted.

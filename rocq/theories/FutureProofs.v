(* Lemmas for FutureProps.v *)

From Coq Require Import List Arith Bool Lia.
Import ListNotations.
From Verif Require Import FutureModel.

Definition locked (p : pc) : bool :=
  match p with
  | InRead | Ch3 | Ch3e | H0 | H1 | H2 _ | H3 | H4 _ | Ch5 _ | AIn => true
  | _ => false
  end.

Inductive stage := Fresh | Evaling | Got (o : outcome) | Stored (o : outcome) | Done (o : outcome).

Definition is_some (o : outcome) := match o with Some _ => true | None => false end.

Definition fields (g : stage) (h : shared) : Prop :=
  match g with
  | Fresh => value h = None /\ fin h = false /\ evals h = 0 /\ outs h = []
  | Evaling => value h = None /\ fin h = false /\ evals h = 1 /\ outs h = []
  | Got o => value h = None /\ fin h = false /\ evals h = 1 /\ outs h = [o]
  | Stored o => value h = Some (rep o) /\ fin h = false /\ evals h = 1 /\ outs h = [o]
  | Done o => value h = Some (rep o) /\ fin h = true /\ evals h = 1 /\ outs h = [o]
  end.

Definition has_value (g : stage) := match g with Stored _ | Done _ => True | _ => False end.
Definition is_done (g : stage) := match g with Done _ => True | _ => False end.

Definition pc_ok (g : stage) (p : pc) : Prop :=
  match p with
  | Check1b | LockRead | InRead => has_value g
  | Ch3e => is_done g
  | H0 => g = Fresh
  | H1 => g = Evaling
  | H2 o => g = Got o
  | H3 => g = Stored None
  | H4 ok => exists o, g = Stored o /\ ok = is_some o
  | Ch5 ok => exists o, g = Done o /\ ok = is_some o
  | A1 | A1b | A2 | ALock | AIn => exists o, g = Done o /\ is_some o = true
  | _ => True
  end.

Definition busy (g : stage) : Prop :=
  match g with Evaling | Got _ | Stored _ => True | _ => False end.
(* The pc whose thread the stage belongs to. *)
Definition runs (p : pc) : bool :=
  match p with H1 | H2 _ | H3 | H4 _ => true | _ => false end.

Definition nlocked (l : list pc) : nat := length (filter locked l).

Definition log_ok (h : shared) (l : list (nat * res)) : Prop :=
  forall t r, In (t, r) l ->
    exists o, outs h = [o] /\ (r = RErr \/ r = RVal (rep o)).

Record Inv (g : stage) (s : state) : Prop := {
  i_fields : fields g (sh s);
  i_pcs : forall t p, In p (th s t) -> pc_ok g p;
  i_lock : forall t, nlocked (th s t) =
    match lock (sh s) with Some u => if u =? t then 1 else 0 | None => 0 end;
  i_busy : busy g -> exists t p, In p (th s t) /\ runs p = true;
  i_below : forall t p b, th s t = p :: b -> Forall (fun q => q = H1) b;
  i_log : log_ok (sh s) (log s) }.

Lemma inv_init : Inv Fresh init.
Proof.
  constructor; cbn; auto; try contradiction; try discriminate.
  intros t r [].
Qed.

Lemma nlocked_pos : forall l p, In p l -> locked p = true -> 0 < nlocked l.
Proof.
  intros l p I L. unfold nlocked.
  assert (X : In p (filter locked l)) by (apply filter_In; auto).
  destruct (filter locked l); [destruct X | cbn; lia].
Qed.

Lemma runs_locked : forall p, runs p = true -> locked p = true.
Proof. destruct p; cbn; congruence. Qed.

Lemma owner : forall g s t p, Inv g s -> In p (th s t) -> locked p = true -> lock (sh s) = Some t.
Proof.
  intros g s t p I P L. pose proof (nlocked_pos _ _ P L) as X.
  rewrite (i_lock _ _ I) in X. destruct (lock (sh s)) as [u|]; [|lia].
  destruct (Nat.eqb_spec u t); [congruence|lia].
Qed.

Lemma upd_same : forall f t l, upd f t l t = l.
Proof. intros; unfold upd; now rewrite Nat.eqb_refl. Qed.
Lemma upd_other : forall f t l x, x <> t -> upd f t l x = f x.
Proof. intros f t l x N1; unfold upd. destruct (Nat.eqb_spec x t); congruence. Qed.

(* The stage only goes forward. *)
Definition le (g g' : stage) : Prop :=
  match g, g' with
  | Fresh, _ => True
  | Evaling, Fresh => False
  | Evaling, _ => True
  | Got _, (Fresh | Evaling) => False
  | Got o, (Got o' | Stored o' | Done o') => o = o'
  | Stored o, (Stored o' | Done o') => o = o'
  | Stored _, _ => False
  | Done o, Done o' => o = o'
  | Done _, _ => False
  end.

Lemma le_refl : forall g, le g g.
Proof. destruct g; cbn; auto. Qed.

Lemma le_trans : forall a b c, le a b -> le b c -> le a c.
Proof. destruct a, b, c; cbn; intros; subst; auto; contradiction. Qed.

Lemma pc_ok_le : forall g g' p, le g g' -> locked p = false -> pc_ok g p -> pc_ok g' p.
Proof.
  intros g g' p LE LK OK.
  destruct p; cbn in *; try discriminate; auto;
    try (destruct g; try contradiction; destruct g'; cbn in *; auto; contradiction).
  all: destruct OK as (o & -> & S1); destruct g'; cbn in LE; try contradiction; subst; eauto.
Qed.

(* What one step of a thread does to the promise, given the stage. *)
Lemma act_stage : forall g s t o p b h' a,
  Inv g s -> th s t = p :: b -> act t o p (sh s) = Some (h', a) ->
  exists g', fields g' h' /\ le g g' /\
    (g' = g \/ locked p = true) /\
    match a with
    | Next p' =>
        pc_ok g' p' /\
        (busy g' -> runs p' = true \/ (busy g /\ runs p = false)) /\
        lock h' = (if locked p' then Some t else if locked p then None else lock (sh s)) /\
        (locked p = false -> locked p' = true -> lock (sh s) = None)
    | Ret r =>
        (busy g' -> busy g /\ runs p = false) /\
        (exists o', outs h' = [o'] /\ (r = RErr \/ r = RVal (rep o'))) /\
        lock h' = (if locked p then None else lock (sh s))
    end.
Proof.
  intros g s t o p b h' a I TH A.
  pose proof (i_fields _ _ I) as F.
  assert (IP : In p (th s t)) by (rewrite TH; now left).
  pose proof (i_pcs _ _ I t p IP) as OK.
  assert (OWN : locked p = true -> lock (sh s) = Some t) by (intros; eapply owner; eauto).
  destruct p; cbn [act] in A; cbn [locked pc_ok] in *; try specialize (OWN eq_refl).
  - (* Check1 *) inversion A; subst; clear A. exists g.
    refine (conj F (conj (le_refl _) (conj (or_introl eq_refl) _))).
    destruct (value (sh s)) eqn:E; cbn; repeat split; auto; try discriminate.
    destruct g; cbn in F; destruct F as (F1 & _); cbn; auto; congruence.
  - (* Check1b *)
    destruct (fin (sh s)) eqn:E; inversion A; subst; clear A; exists g;
      refine (conj F (conj (le_refl _) (conj (or_introl eq_refl) _))).
    + destruct g; cbn in OK; try contradiction; cbn in F; destruct F as (F1 & F2 & F3 & F4); try congruence.
      cbn. repeat split; auto. exists o0. unfold rd. rewrite F1. auto.
    + cbn; repeat split; auto; discriminate.
  - (* Check2 *) inversion A; subst; clear A. exists g.
    refine (conj F (conj (le_refl _) (conj (or_introl eq_refl) _))).
    destruct (value (sh s)) eqn:E; cbn; repeat split; auto; try discriminate.
    destruct g; cbn in F; destruct F as (F1 & _); cbn; auto; congruence.
  - (* LockRead *)
    destruct (lock (sh s)) eqn:E; inversion A; subst; clear A. exists g.
    assert (F' : fields g (set_lock (sh s) (Some t))) by (destruct g; exact F).
    refine (conj F' (conj (le_refl _) (conj (or_introl eq_refl) _))).
    cbn; repeat split; auto.
  - (* InRead *) inversion A; subst; clear A. exists g.
    assert (F' : fields g (set_lock (sh s) None)) by (destruct g; exact F).
    refine (conj F' (conj (le_refl _) (conj (or_introl eq_refl) _))).
    destruct g; cbn in OK; try contradiction; cbn in F; destruct F as (F1 & F2 & F3 & F4);
      cbn; repeat split; auto; exists o0; unfold rd; rewrite F1; auto.
  - (* Ch1 *)
    destruct (fin (sh s)) eqn:E; inversion A; subst; clear A; exists g;
      refine (conj F (conj (le_refl _) (conj (or_introl eq_refl) _))).
    + destruct g; cbn in F; destruct F as (F1 & F2 & F3 & F4); try congruence.
      cbn. repeat split; auto. exists o0. auto.
    + cbn; repeat split; auto; discriminate.
  - (* Ch2 *)
    destruct (lock (sh s)) eqn:E; inversion A; subst; clear A. exists g.
    assert (F' : fields g (set_lock (sh s) (Some t))) by (destruct g; exact F).
    refine (conj F' (conj (le_refl _) (conj (or_introl eq_refl) _))).
    cbn; repeat split; auto.
  - (* Ch3 *)
    inversion A; subst; clear A. exists g.
    refine (conj F (conj (le_refl _) (conj (or_introl eq_refl) _))).
    assert (NB : busy g -> False).
    { intros B. destruct (i_busy _ _ I B) as (u & q & IQ & RQ).
      pose proof (owner _ _ _ _ I IQ (runs_locked _ RQ)) as OU.
      assert (u = t) by congruence. subst u. rewrite TH in IQ.
      destruct IQ as [<- | IQ]; [discriminate|].
      pose proof (i_lock _ _ I t) as NL. rewrite OWN, Nat.eqb_refl, TH in NL.
      unfold nlocked in NL. cbn in NL.
      pose proof (nlocked_pos b q IQ (runs_locked _ RQ)) as X. unfold nlocked in X. lia. }
    destruct (fin (sh s)) eqn:E; cbn [pc_ok locked];
      (refine (conj _ (conj (fun B => False_ind _ (NB B)) (conj OWN _))); [|discriminate]).
    + destruct g; cbn in F; destruct F as (F1 & F2 & F3 & F4); try congruence. exact Logic.I.
    + destruct g; cbn in F, NB; destruct F as (F1 & F2 & F3 & F4); try congruence;
        exfalso; apply NB; exact Logic.I.
  - (* Ch3e *) inversion A; subst; clear A. exists g.
    assert (F' : fields g (set_lock (sh s) None)) by (destruct g; exact F).
    refine (conj F' (conj (le_refl _) (conj (or_introl eq_refl) _))).
    destruct g; cbn in OK; try contradiction; cbn in F; destruct F as (F1 & F2 & F3 & F4);
      cbn; repeat split; auto; exists o0; auto.
  - (* H0 *) subst g. inversion A; subst; clear A. exists Evaling. cbn in *.
    destruct F as (F1 & F2 & F3 & F4). repeat split; auto; congruence.
  - (* H1 *) subst g. inversion A; subst; clear A. exists (Got o). cbn in *.
    destruct F as (F1 & F2 & F3 & F4). rewrite F4. repeat split; auto; congruence.
  - (* H2 *) subst g. inversion A; subst; clear A. exists (Stored o0). cbn in *.
    destruct F as (F1 & F2 & F3 & F4).
    destruct o0; cbn; repeat split; eauto; congruence.
  - (* H3 *) subst g. inversion A; subst; clear A. exists (Stored None). cbn in *.
    destruct F as (F1 & F2 & F3 & F4). repeat split; eauto; congruence.
  - (* H4 *) destruct OK as (o1 & -> & ->). inversion A; subst; clear A. exists (Done o1). cbn in *.
    destruct F as (F1 & F2 & F3 & F4). repeat split; eauto; try contradiction; congruence.
  - (* Ch5 *) destruct OK as (o1 & -> & ->). inversion A; subst; clear A. exists (Done o1). cbn in F.
    destruct F as (F1 & F2 & F3 & F4). 
    destruct o1; cbn; repeat split; eauto; try contradiction; congruence.
  - (* A1 *) destruct OK as (o1 & -> & S1). inversion A; subst; clear A. exists (Done o1).
    cbn in F. destruct F as (F1 & F2 & F3 & F4). rewrite F1. cbn.
    repeat split; eauto; try contradiction; congruence.
  - (* A1b *) destruct OK as (o1 & -> & S1).
    cbn in F. destruct F as (F1 & F2 & F3 & F4). rewrite F2 in A.
    inversion A; subst; clear A. exists (Done o1). cbn.
    repeat split; eauto. exists o1. unfold rd. rewrite F1. auto.
  - (* A2 *) destruct OK as (o1 & -> & S1).
    cbn in F. destruct F as (F1 & F2 & F3 & F4). rewrite F1 in A.
    inversion A; subst; clear A. exists (Done o1). cbn.
    repeat split; eauto; try contradiction; congruence.
  - (* ALock *) destruct OK as (o1 & -> & S1).
    destruct (lock (sh s)) eqn:E; inversion A; subst; clear A. exists (Done o1).
    cbn in *. destruct F as (F1 & F2 & F3 & F4). repeat split; eauto; try contradiction.
  - (* AIn *) destruct OK as (o1 & -> & S1). inversion A; subst; clear A. exists (Done o1).
    cbn in F. destruct F as (F1 & F2 & F3 & F4). cbn. repeat split; eauto.
    exists o1. unfold rd. rewrite F1. auto.
Qed.

Lemma outs_le : forall g g' h h' o,
  fields g h -> fields g' h' -> le g g' -> outs h = [o] -> outs h' = [o].
Proof.
  intros g g' h h' o F F' LE O.
  destruct g, g'; cbn in *; decompose [and] F; decompose [and] F'; congruence || contradiction.
Qed.

Lemma nlocked_cons : forall p l, nlocked (p :: l) = (if locked p then 1 else 0) + nlocked l.
Proof. intros p l; unfold nlocked; cbn. destruct (locked p); reflexivity. Qed.

(* The parts common to a step and a return of the innermost call. *)
Lemma inv_act : forall g s t o p b h' a l l',
  Inv g s -> th s t = p :: b -> act t o p (sh s) = Some (h', a) ->
  l = match a with Next p' => p' :: b | Ret _ => b end ->
  l' = match a with Next _ => log s | Ret r => log s ++ [(t, r)] end ->
  exists g', le g g' /\ Inv g' {| sh := h'; th := upd (th s) t l; log := l' |}.
Proof.
  intros g s t o p b h' a l l' I TH A -> ->.
  destruct (act_stage _ _ _ _ _ _ _ _ I TH A) as (g' & F & LE & SAME & REST).
  exists g'. split; [exact LE|].
  assert (IP : In p (th s t)) by (rewrite TH; now left).
  assert (OWN : forall u q, In q (th s u) -> locked q = true -> lock (sh s) = Some u)
    by (intros; eapply owner; eauto).
  pose proof (i_lock _ _ I t) as NL. rewrite TH, nlocked_cons in NL.
  pose proof (i_below _ _ I _ _ _ TH) as BE.
  assert (NB : locked p = true -> b = []).
  { intros L. rewrite L, (OWN t p IP L), Nat.eqb_refl in NL.
    destruct b as [|q b]; [reflexivity|].
    inversion BE; subst. rewrite nlocked_cons in NL. cbn in NL. lia. }
  assert (OTHER : forall u q, u <> t -> In q (th s u) -> pc_ok g' q).
  { intros u q NE IQ. destruct (locked q) eqn:LQ.
    - destruct SAME as [-> | LP]; [exact (i_pcs _ _ I u q IQ)|].
      pose proof (OWN u q IQ LQ). pose proof (OWN t p IP LP). congruence.
    - apply pc_ok_le with g; auto. exact (i_pcs _ _ I u q IQ). }
  assert (BELOW : forall q, In q b -> pc_ok g' q).
  { intros q IQ. destruct SAME as [-> | LP].
    - apply (i_pcs _ _ I t). rewrite TH. now right.
    - rewrite (NB LP) in IQ. destruct IQ. }
  destruct a as [p'|r].
  - destruct REST as (OK' & BUSY & LK & ACQ).
    constructor; cbn [sh th log].
    + exact F.
    + intros u q IQ. destruct (Nat.eq_dec u t) as [-> |NE].
      * rewrite upd_same in IQ. destruct IQ as [<- | IQ]; auto.
      * rewrite upd_other in IQ by assumption. eauto.
    + intros u. destruct (Nat.eq_dec u t) as [-> |NE].
      * rewrite upd_same, nlocked_cons, LK.
        destruct (locked p') eqn:LP'.
        -- rewrite Nat.eqb_refl. destruct (locked p) eqn:LP.
           ++ rewrite (NB eq_refl). reflexivity.
           ++ rewrite (ACQ eq_refl eq_refl) in NL. lia.
        -- destruct (locked p) eqn:LP; [rewrite (NB eq_refl); reflexivity|exact NL].
      * rewrite upd_other by assumption. rewrite (i_lock _ _ I u), LK.
        destruct (locked p') eqn:LP'.
        -- destruct (Nat.eqb_spec t u); [congruence|].
           destruct (locked p) eqn:LP.
           ++ rewrite (OWN t p IP LP). destruct (Nat.eqb_spec t u); [congruence|reflexivity].
           ++ rewrite (ACQ eq_refl eq_refl). reflexivity.
        -- destruct (locked p) eqn:LP; [|reflexivity].
           rewrite (OWN t p IP LP). destruct (Nat.eqb_spec t u); [congruence|reflexivity].
    + intros B. destruct (BUSY B) as [R|[BG RP]].
      * exists t, p'. rewrite upd_same. split; [now left|exact R].
      * destruct (i_busy _ _ I BG) as (u & q & IQ & RQ). exists u, q. split; [|exact RQ].
        destruct (Nat.eq_dec u t) as [-> |NE].
        -- rewrite upd_same. rewrite TH in IQ. destruct IQ as [<- | IQ]; [congruence|now right].
        -- now rewrite upd_other.
    + intros u q b' E. destruct (Nat.eq_dec u t) as [-> |NE].
      * rewrite upd_same in E. inversion E; subst. exact BE.
      * rewrite upd_other in E by assumption. exact (i_below _ _ I _ _ _ E).
    + intros u r IR. destruct (i_log _ _ I u r IR) as (o' & O & R). exists o'. split; [|exact R].
      exact (outs_le _ _ _ _ _ (i_fields _ _ I) F LE O).
  - destruct REST as (BUSY & RES & LK).
    constructor; cbn [sh th log].
    + exact F.
    + intros u q IQ. destruct (Nat.eq_dec u t) as [-> |NE].
      * rewrite upd_same in IQ. auto.
      * rewrite upd_other in IQ by assumption. eauto.
    + intros u. destruct (Nat.eq_dec u t) as [-> |NE].
      * rewrite upd_same, LK.
        destruct (locked p) eqn:LP; [rewrite (NB eq_refl); reflexivity|exact NL].
      * rewrite upd_other by assumption. rewrite (i_lock _ _ I u), LK.
        destruct (locked p) eqn:LP; [|reflexivity].
        rewrite (OWN t p IP LP). destruct (Nat.eqb_spec t u); [congruence|reflexivity].
    + intros B. destruct (BUSY B) as [BG RP].
      destruct (i_busy _ _ I BG) as (u & q & IQ & RQ). exists u, q. split; [|exact RQ].
      destruct (Nat.eq_dec u t) as [-> |NE].
      * rewrite upd_same. rewrite TH in IQ. destruct IQ as [<- | IQ]; [congruence|assumption].
      * now rewrite upd_other.
    + intros u q b' E. destruct (Nat.eq_dec u t) as [-> |NE].
      * rewrite upd_same in E. subst b. now inversion BE.
      * rewrite upd_other in E by assumption. exact (i_below _ _ I _ _ _ E).
    + intros u r' IR. apply in_app_or in IR. destruct IR as [IR|[IR|[]]].
      * destruct (i_log _ _ I u r' IR) as (o' & O & R). exists o'. split; [|exact R].
        exact (outs_le _ _ _ _ _ (i_fields _ _ I) F LE O).
      * inversion IR; subst. exact RES.
Qed.

Lemma inv_step : forall g s s', Inv g s -> step s s' -> exists g', le g g' /\ Inv g' s'.
Proof.
  intros g s s' I ST. destruct ST.
  - exists g. split; [apply le_refl|].
    constructor; cbn [sh th log].
    + exact (i_fields _ _ I).
    + intros u q IQ. destruct (Nat.eq_dec u t) as [-> |NE].
      * rewrite upd_same in IQ. destruct IQ as [<- | IQ]; [exact Logic.I|]. exact (i_pcs _ _ I t q IQ).
      * rewrite upd_other in IQ by assumption. exact (i_pcs _ _ I u q IQ).
    + intros u. rewrite <- (i_lock _ _ I u). destruct (Nat.eq_dec u t) as [-> |NE].
      * now rewrite upd_same.
      * now rewrite upd_other.
    + intros B. destruct (i_busy _ _ I B) as (u & q & IQ & RQ). exists u, q. split; [|exact RQ].
      destruct (Nat.eq_dec u t) as [-> |NE]; [rewrite upd_same; now right|now rewrite upd_other].
    + intros u q b E. destruct (Nat.eq_dec u t) as [-> |NE].
      * rewrite upd_same in E. inversion E; subst.
        destruct H as [-> | [b' H]]; [constructor|].
        rewrite H. constructor; [reflexivity|]. exact (i_below _ _ I _ _ _ H).
      * rewrite upd_other in E by assumption. exact (i_below _ _ I _ _ _ E).
    + exact (i_log _ _ I).
  - eapply inv_act; eauto.
  - eapply inv_act; eauto.
Qed.

Lemma inv_steps : forall g s s', Inv g s -> steps s s' -> exists g', le g g' /\ Inv g' s'.
Proof.
  intros g s s' I ST. induction ST; [exists g; split; [apply le_refl|exact I]|].
  destruct (IHST I) as (g1 & L1 & I1).
  destruct (inv_step _ _ _ I1 H) as (g2 & L2 & I2).
  exists g2. split; [now apply le_trans with g1|exact I2].
Qed.

Lemma inv_reachable : forall s, reachable s -> exists g, Inv g s.
Proof. intros s R. destruct (inv_steps _ _ _ inv_init R) as (g & _ & I). eauto. Qed.

(** * Lemmas about allocation. *)
From Verif Require Import BytesModel BytesProofs AllocModel.
Local Open Scope N_scope.

Definition holds_lock (x : tstate) : Prop :=
  match x with Idle | AWant _ | CRead _ => False | _ => True end.

(** The part of the identifier space a thread is about to return. *)
Definition granted (e : event) : list (N * N) := match e with EGrant s n => [(s, n)] | ERefuse _ _ => [] end.
Definition grants (l : list event) : list (N * N) := flat_map granted l.

(** [tiles lo hi gs]: the grants, newest first, tile [lo,hi). *)
Fixpoint tiles (lo hi : N) (gs : list (N * N)) : Prop :=
  match gs with
  | [] => lo = hi
  | (s, n) :: r => s + n = hi /\ tiles lo s r
  end.

Record inv (cap maxn l0 : N) (s : pstate) : Prop := {
  i_lock : forall t, holds_lock (th s t) <-> lock s = Some t;
  i_th : forall t, match th s t with
                   | AWant n | AIn n => n <= maxn
                   | AStart n => n <= maxn /\ load s + n <= cap
                   | ABump n st => n <= maxn /\ load s + n <= cap /\ st = load s
                   | ADone n st => n <= maxn /\ load s = st + n /\ tiles l0 st (grants (log s))
                   | ARefuse n l => n <= maxn /\ cap < l + n /\ l = load s
                   | _ => True
                   end;
  i_tiles : (forall t n st, th s t <> ADone n st) -> tiles l0 (load s) (grants (log s));
  i_le : l0 <= load s <= cap;
  i_ref : forall n l, In (ERefuse n l) (log s) -> cap < l + n /\ l0 <= l <= cap;
  i_max : forall st n, In (EGrant st n) (log s) -> n <= maxn }.

Lemma upd_same : forall f t s, upd f t s t = s.
Proof. intros. unfold upd. now rewrite Nat.eqb_refl. Qed.
Lemma upd_other : forall f t s u, u <> t -> upd f t s u = f u.
Proof. intros. unfold upd. destruct (Nat.eqb_spec u t); congruence. Qed.
Lemma u32_small : forall x, x < 2^32 -> u32 x = x.
Proof. intros. rewrite land_u32. now apply N.mod_small. Qed.

Lemma tiles_le : forall gs lo hi, tiles lo hi gs -> lo <= hi.
Proof. induction gs as [|[s n] gs IH]; simpl; intros lo hi H; [lia|]. destruct H as [<- H]. apply IH in H. lia. Qed.

(** Moving one thread between two states that both hold (or both do not hold) the
    lock. *)
Lemma lock_keep : forall s t x,
  (forall u, holds_lock (th s u) <-> lock s = Some u) ->
  (holds_lock x <-> holds_lock (th s t)) ->
  forall u, holds_lock (upd (th s) t x u) <-> lock s = Some u.
Proof.
  intros s t x H Hx u. destruct (Nat.eq_dec u t) as [->|Hu].
  - rewrite upd_same, Hx. apply H.
  - rewrite upd_other by assumption. apply H.
Qed.
Lemma lock_take : forall s t x,
  (forall u, holds_lock (th s u) <-> lock s = Some u) -> lock s = None -> holds_lock x ->
  forall u, holds_lock (upd (th s) t x u) <-> Some t = Some u.
Proof.
  intros s t x H Hn Hx u. destruct (Nat.eq_dec u t) as [->|Hu].
  - rewrite upd_same. tauto.
  - rewrite upd_other by assumption. rewrite H, Hn. split; congruence.
Qed.
Lemma lock_drop : forall s t,
  (forall u, holds_lock (th s u) <-> lock s = Some u) -> holds_lock (th s t) ->
  forall u, holds_lock (upd (th s) t Idle u) <-> None = Some u.
Proof.
  intros s t H Ht u. destruct (Nat.eq_dec u t) as [->|Hu].
  - rewrite upd_same. simpl. split; [tauto|discriminate].
  - rewrite upd_other by assumption. rewrite H. apply H in Ht. split; congruence.
Qed.

(** A thread other than the lock holder is in a state that does not speak about the
    load. *)
Lemma not_holder : forall s t u, (forall u, holds_lock (th s u) <-> lock s = Some u) ->
  holds_lock (th s t) -> u <> t -> ~ holds_lock (th s u).
Proof. intros s t u H Ht Hu C. apply H in Ht, C. congruence. Qed.

Lemma inv_init : forall cap maxn l0, l0 <= cap -> inv cap maxn l0 (start_state l0).
Proof.
  intros. constructor; simpl; intros; try easy; try lia.
Qed.

Ltac other_th I Hl u :=
  let Hu := fresh in
  match goal with |- match upd _ ?t _ u with _ => _ end =>
    destruct (Nat.eq_dec u t) as [->|Hu];
    [ rewrite upd_same | rewrite upd_other by assumption ] end.

Theorem inv_step : forall cap maxn l0 s s', cap + maxn < 2^32 -> maxn < 2^31 ->
  inv cap maxn l0 s -> step cap maxn s s' -> quiet s s' -> inv cap maxn l0 s'.
Proof.
  intros cap maxn l0 s s' Hw Hm I St Q. destruct I as [IL IT ITi ILe IR IM].
  destruct St as [t n Ht Hn|t n Ht Hn|t n Ht Hc|t n Ht Hc|t n Ht|t n st Ht|t n st Ht|t n l Ht|t Ht Hc|t l Ht Hc|t l Ht];
    pose proof (IT t) as ITt; rewrite Ht in ITt.
  - (* call *)
    constructor; simpl; auto.
    + apply lock_keep; auto. rewrite Ht. reflexivity.
    + intro u. other_th I IL u; [assumption|apply IT].
    + intros H. apply ITi. intros u n' st C. specialize (H u n' st). destruct (Nat.eq_dec u t) as [->|Hu].
      * congruence.
      * rewrite upd_other in H by assumption. contradiction.
  - (* lock *)
    constructor; simpl; auto.
    + apply lock_take; simpl; auto.
    + intro u. other_th I IL u; [assumption|apply IT].
    + intros H. apply ITi. intros u n' st C.
      assert (holds_lock (th s u)) by (rewrite C; exact Logic.I). apply IL in H0. congruence.
  - (* check ok *)
    assert (HH : holds_lock (th s t)) by (rewrite Ht; exact Logic.I).
    apply N.leb_le in Hc. rewrite u32_small in Hc by lia.
    constructor; simpl; auto.
    + apply lock_keep; auto. rewrite Ht. reflexivity.
    + intro u. other_th I IL u; [auto|apply IT].
    + intros _. apply ITi. intros u n' st C.
      destruct (Nat.eq_dec u t) as [->|Hu]; [congruence|]. apply (not_holder s t u IL HH Hu). rewrite C. exact Logic.I.
  - (* check fail *)
    assert (HH : holds_lock (th s t)) by (rewrite Ht; exact Logic.I).
    apply N.leb_gt in Hc. rewrite u32_small in Hc by lia.
    constructor; simpl; auto.
    + apply lock_keep; auto. rewrite Ht. reflexivity.
    + intro u. other_th I IL u; [auto|apply IT].
    + intros _. apply ITi. intros u n' st C.
      destruct (Nat.eq_dec u t) as [->|Hu]; [congruence|]. apply (not_holder s t u IL HH Hu). rewrite C. exact Logic.I.
  - (* start *)
    assert (HH : holds_lock (th s t)) by (rewrite Ht; exact Logic.I).
    constructor; simpl; auto.
    + apply lock_keep; auto. rewrite Ht. reflexivity.
    + intro u. other_th I IL u; [tauto|apply IT].
    + intros _. apply ITi. intros u n' st C.
      destruct (Nat.eq_dec u t) as [->|Hu]; [congruence|]. apply (not_holder s t u IL HH Hu). rewrite C. exact Logic.I.
  - (* bump *)
    assert (HH : holds_lock (th s t)) by (rewrite Ht; exact Logic.I).
    destruct ITt as (Hn & Hc & ->).
    assert (HT : tiles l0 (load s) (grants (log s))).
    { apply ITi. intros u n' st C.
      destruct (Nat.eq_dec u t) as [->|Hu]; [congruence|]. apply (not_holder s t u IL HH Hu). rewrite C. exact Logic.I. }
    assert (E : u32 (load s + n) = load s + n) by (apply u32_small; lia). rewrite E.
    constructor; simpl; auto.
    + apply lock_keep; auto. rewrite Ht. reflexivity.
    + intro u. other_th I IL u; [auto|].
      pose proof (not_holder s t u IL HH ltac:(assumption)) as NH. specialize (IT u).
      destruct (th s u); simpl in NH; try tauto.
    + intros H. exfalso. apply (H t n (load s)). apply upd_same.
    + lia.
  - (* done *)
    assert (HH : holds_lock (th s t)) by (rewrite Ht; exact Logic.I).
    destruct ITt as (Hn & Hc & HT).
    assert (EL : loop_count n = n) by (unfold loop_count; destruct (N.ltb_spec n (2^31)); lia).
    rewrite EL.
    constructor; simpl; auto.
    + apply lock_drop; auto.
    + intro u. other_th I IL u; [auto|].
      pose proof (not_holder s t u IL HH ltac:(assumption)) as NH. specialize (IT u).
      destruct (th s u); simpl in NH; try tauto.
    + intros m l [C|C]; [discriminate|auto].
    + intros st' m [C|C]; [congruence|eauto].
  - (* refuse *)
    assert (HH : holds_lock (th s t)) by (rewrite Ht; exact Logic.I).
    destruct ITt as (Hn & Hc & ->).
    constructor; simpl; auto.
    + apply lock_drop; auto.
    + intro u. other_th I IL u; [auto|].
      pose proof (not_holder s t u IL HH ltac:(assumption)) as NH. specialize (IT u).
      destruct (th s u); simpl in NH; try tauto.
    + intros _. apply ITi. intros u n' st C.
      destruct (Nat.eq_dec u t) as [->|Hu]; [congruence|]. apply (not_holder s t u IL HH Hu). rewrite C. exact Logic.I.
    + intros m l [C|C]; [|auto]. injection C as <- <-. lia.
    + intros st m [C|C]; [discriminate|eauto].
  - (* commit reads the load *)
    constructor; simpl; auto.
    + apply lock_keep; auto. rewrite Ht. reflexivity.
    + intro u. other_th I IL u; [auto|apply IT].
    + intros H. apply ITi. intros u n' st C. specialize (H u n' st). destruct (Nat.eq_dec u t) as [->|Hu].
      * congruence.
      * rewrite upd_other in H by assumption. contradiction.
  - (* commit locks *)
    constructor; simpl; auto.
    + apply lock_take; simpl; auto.
    + intro u. other_th I IL u; [auto|apply IT].
    + intros H. apply ITi. intros u n' st C.
      assert (holds_lock (th s u)) by (rewrite C; exact Logic.I). apply IL in H0. congruence.
  - (* commit updates *)
    assert (HH : holds_lock (th s t)) by (rewrite Ht; exact Logic.I).
    assert (EL : load s = l). { apply (Q t l Ht). simpl. apply upd_same. }
    assert (E : (if negb (l =? fload s) then l else load s) = load s) by (destruct (negb _); congruence).
    rewrite E.
    constructor; simpl; auto.
    + apply lock_drop; auto.
    + intro u. other_th I IL u; [auto|].
      pose proof (not_holder s t u IL HH ltac:(assumption)) as NH. specialize (IT u).
      destruct (th s u); simpl in NH; try tauto.
    + intros _. apply ITi. intros u n' st C.
      destruct (Nat.eq_dec u t) as [->|Hu]; [congruence|]. apply (not_holder s t u IL HH Hu). rewrite C. exact Logic.I.
Qed.

Theorem inv_reach : forall cap maxn l0 s, cap + maxn < 2^32 -> maxn < 2^31 -> l0 <= cap ->
  reach_quiet cap maxn l0 s -> inv cap maxn l0 s.
Proof. intros cap maxn l0 s Hw Hm Hl R. induction R; [now apply inv_init|eauto using inv_step]. Qed.

(** The load at which the returned part of the log ends. *)
Lemma inv_tiles : forall cap maxn l0 s, inv cap maxn l0 s ->
  exists hi, hi <= load s /\ tiles l0 hi (grants (log s)).
Proof.
  intros cap maxn l0 s I.
  destruct (lock s) as [t|] eqn:EL.
  - destruct (th s t) eqn:Et.
    all: try (exists (load s); split; [lia|]; apply (i_tiles _ _ _ _ I); intros u n' st' C;
      assert (HH : holds_lock (th s u)) by (rewrite C; exact Logic.I);
      apply (i_lock _ _ _ _ I) in HH; rewrite EL in HH; injection HH as <-; congruence).
    pose proof (i_th _ _ _ _ I t) as H. rewrite Et in H. exists s0. split; [lia|tauto].
  - exists (load s). split; [lia|]. apply (i_tiles _ _ _ _ I). intros u n' st' C.
    assert (HH : holds_lock (th s u)) by (rewrite C; exact Logic.I).
    apply (i_lock _ _ _ _ I) in HH. congruence.
Qed.

Lemma tiles_in : forall gs lo hi s n, tiles lo hi gs -> In (s, n) gs -> lo <= s /\ s + n <= hi.
Proof.
  induction gs as [|[s' n'] gs IH]; simpl; intros lo hi s n H HI; [contradiction|].
  destruct H as [H1 H2]. destruct HI as [E|HI].
  - injection E as -> ->. apply tiles_le in H2. lia.
  - specialize (IH _ _ _ _ H2 HI). lia.
Qed.
Lemma tiles_disjoint : forall gs lo hi, tiles lo hi gs ->
  ForallOrdPairs (fun a b => fst b + snd b <= fst a) gs.
Proof.
  induction gs as [|[s n] gs IH]; simpl; intros lo hi H; constructor.
  - apply Forall_forall. intros [s' n'] HI. simpl. destruct H as [_ H]. pose proof (tiles_in _ _ _ _ _ H HI). lia.
  - destruct H as [_ H]. eauto.
Qed.
Lemma tiles_cover : forall gs lo hi, tiles lo hi gs -> forall k, lo <= k < hi -> exists s n, In (s, n) gs /\ s <= k < s + n.
Proof.
  induction gs as [|[s n] gs IH]; simpl; intros lo hi H k Hk; [lia|].
  destruct H as [H1 H2]. destruct (N.lt_ge_cases k s) as [C|C].
  - destruct (IH _ _ H2 k ltac:(lia)) as (s' & n' & HI & HB). exists s', n'. auto.
  - exists s, n. split; [auto|lia].
Qed.
Lemma in_grants : forall l s n, In (s, n) (grants l) <-> In (EGrant s n) l.
Proof.
  intros. unfold grants. rewrite in_flat_map. split.
  - intros (e & He & Hi). destruct e; simpl in Hi; [|contradiction]. destruct Hi as [E|[]]. injection E as -> ->. assumption.
  - intros H. exists (EGrant s n). split; [assumption|simpl; auto].
Qed.

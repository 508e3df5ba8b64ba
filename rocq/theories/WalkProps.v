(** * Walks over frames: what they visit, what is inherited, bases and closures. *)

From Coq Require Import List Bool Arith Lia Relations.
From Verif Require Import WalkModel WalkProofs.
Import ListNotations.

Section Props.

Variable V : Type.
Variable veq : V -> V -> bool.
Variable kindof : V -> kind.
Variable oval : V -> oidval V.
Variable tval : V -> V -> list V.
Hypothesis veq_ok : forall a b, veq a b = true <-> a = b.

Notation walk_tree := (walk_tree V veq kindof oval).
Notation inherit_values := (inherit_values V veq kindof oval tval).
Notation inherits_valuep := (inherits_valuep V veq kindof oval tval).
Notation kpathp := (kpathp V veq kindof oval).
Notation get_basis := (get_basis V veq kindof oval).
Notation kleene_star := (kleene_star V veq kindof oval tval).
Notation kleene_plus := (kleene_plus V veq kindof oval tval).
Notation getstar := (getstar V veq kindof oval tval).

(** One step: the frame has a table in which one of the slots has an OID for a value. *)
Definition step (slots : list V) (x y : V) : Prop :=
  exists s t, In s slots /\ kindof x = KOid /\ oval x = OTable t /\ In y (t s) /\ kindof y = KOid.
(** Any number of steps from one of the roots, and one or more steps. *)
Definition reaches (slots : list V) := clos_refl_trans V (step slots).
Definition from (slots roots : list V) (x : V) : Prop :=
  exists r, In r roots /\ (kindof r = KOid \/ kindof r = KMap) /\ reaches slots r x.
(** A frame a slot of which can't be fetched: an OID whose value can't be fetched, or what
    isn't an OID. *)
Definition broken (slots : list V) (x : V) : Prop :=
  slots <> [] /\ (kindof x <> KOid \/ oval x = OErr).
(** A finite set of frames that no step leaves. *)
Definition within (U slots roots : list V) : Prop :=
  (forall r, In r roots -> kindof r = KOid \/ kindof r = KMap -> In r U) /\
  (forall x y, In x U -> step slots x y -> In y U).

(** The calls of a walk function, one after another; nothing follows a call that didn't
    return a positive number. *)
Inductive calls {D : Type} (walk : V -> D -> code * D) : list V -> D -> code -> D -> Prop :=
| c_none d : calls walk [] d Go d
| c_go n r d d1 c d2 : walk n d = (Go, d1) -> calls walk r d1 c d2 -> calls walk (n :: r) d c d2
| c_last n d c d1 : walk n d = (c, d1) -> c <> Go -> calls walk [n] d c d1.

(** ** Preparation *)

Lemma edge_step slots x y : edge V kindof oval slots x y <-> step slots x y.
Proof.
  unfold edge, step, frame_get, oid_get, oidp. split.
  - intros [s [vs [Is [G [Iy O]]]]]. destruct (kindof x) eqn:K; try discriminate.
    destruct (oval x) as [| | |t|] eqn:E; try discriminate; injection G as <-; try (destruct Iy; fail).
    exists s, t. destruct (kindof y); try discriminate. auto.
  - intros [s [t [Is [K [E [Iy Ky]]]]]]. exists s, (t s). rewrite K, E, Ky. auto.
Qed.
Lemma reach_reaches slots x y : reach V kindof oval slots x y <-> reaches slots x y.
Proof.
  split; intros H.
  - induction H as [|x y z E H IH]; [apply rt_refl|]. eapply rt_trans; [apply rt_step|exact IH].
    now apply edge_step.
  - apply clos_rt_rt1n. induction H as [x y E|x|x y z H1 IH1 H2 IH2].
    + apply rt_step. now apply edge_step.
    + apply rt_refl.
    + eapply rt_trans; eauto.
Qed.
Lemma unfetched slots x : ~ fetched V kindof oval slots x -> broken slots x.
Proof.
  intros H. destruct slots as [|t sl].
  - exfalso. apply H. intros s [].
  - split; [discriminate|]. unfold fetched, frame_get, oid_get, oidp in H.
    destruct (kindof x) eqn:K; try (left; congruence). right.
    destruct (oval x) eqn:E; auto; exfalso; apply H; intros s _; discriminate.
Qed.
Lemma rootp_kind r : rootp V kindof r = true <-> kindof r = KOid \/ kindof r = KMap.
Proof. unfold rootp. destruct (kindof r); split; auto; try (intros [H | H]; congruence); congruence. Qed.

Lemma replay_calls D (walk : V -> D -> code * D) : forall ord d c d',
  replay V D walk ord d = Some (c, d') -> calls walk ord d c d'.
Proof.
  induction ord as [|n r IH]; simpl; intros d c d' H.
  - injection H as <- <-. constructor.
  - destruct (walk n d) as [c1 d1] eqn:W. destruct c1.
    + econstructor 2; eauto.
    + destruct r; [|discriminate]. injection H as <- <-. econstructor 3; eauto. discriminate.
    + destruct r; [|discriminate]. injection H as <- <-. econstructor 3; eauto. discriminate.
Qed.

(** ** C92 *)

(** A walk from any roots ends, also when the frames form cycles; the frames it calls the
    walk function for are reachable from the roots, none is called twice; if every call
    returns a positive number and every slot can be fetched, all reachable frames are
    called; if the walk says that it was stopped, the last call stopped it (or there was no
    root); if it says that it failed, the last call failed or one of the frames called has a
    slot that can't be fetched. *)
Theorem C92_walk : forall (D : Type) (walk : V -> D -> code * D) roots slots d U fuel,
  within U slots roots -> length U <= fuel ->
  exists c s, walk_tree D walk fuel roots slots d = Done c s /\
    NoDup (visited s) /\
    (forall x, In x (visited s) -> from slots roots x) /\
    exists c', calls walk (rev (visited s)) d c' (data s) /\
    match c with
    | Go => c' = Go /\ forall x, from slots roots x -> In x (visited s)
    | Stop => c' = Stop \/ (visited s = [] /\ forall x, ~ from slots roots x)
    | Fail => c' = Fail \/ (c' = Go /\ exists x, In x (visited s) /\ broken slots x)
    end.
Proof.
  intros D walk roots slots d U fuel [WR WU] F.
  destruct (walk_tree D walk fuel roots slots d) as [c s|] eqn:W.
  2:{ exfalso. eapply (walk_roots_fuel V veq kindof oval veq_ok D walk slots U); [| | |exact W].
      - intros x y I E. apply (WU x y I). now apply edge_step.
      - intros r I O. apply WR; auto. now apply rootp_kind.
      - eapply Nat.le_trans; [apply todo_le | exact F]. }
  exists c, s. split; [reflexivity|].
  apply (walk_roots_spec V veq kindof oval veq_ok D walk slots) in W; [|discriminate].
  destruct W as [ord [c1 [E [Hc C]]]].
  pose proof (x_visited _ _ _ _ _ _ _ _ _ _ _ _ E) as Vs. simpl in Vs. rewrite app_nil_r in Vs.
  pose proof (x_seen _ _ _ _ _ _ _ _ _ _ _ _ E) as Sn. simpl in Sn. rewrite app_nil_r in Sn.
  rewrite Vs. rewrite rev_involutive. split; [apply NoDup_rev, (x_nodup _ _ _ _ _ _ _ _ _ _ _ _ E)|].
  assert (FR : forall x, In x ord -> from slots roots x).
  { intros x I. destruct (x_reach _ _ _ _ _ _ _ _ _ _ _ _ E x I) as [r [Ir [O R]]].
    exists r. rewrite <- rootp_kind, <- reach_reaches. auto. }
  split; [intros x I; apply FR; now apply in_rev|].
  destruct (x_run _ _ _ _ _ _ _ _ _ _ _ _ E) as [c' [R Q]]. simpl in R, Q.
  exists c'. split; [now apply replay_calls|].
  assert (None : existsb (rootp V kindof) roots = false -> forall x, ~ from slots roots x).
  { intros N x [r [Ir [K _]]]. apply rootp_kind in K.
    assert (existsb (rootp V kindof) roots = true) by (apply existsb_exists; eauto). congruence. }
  destruct Hc as [<- | [-> [-> N0]]].
  - destruct c; simpl in Q.
    + split; auto. intros x [r [Ir [K Rx]]]. destruct (C eq_refl) as [K1 K2].
      rewrite <- Sn. eapply closed_reach; [exact K1 | reflexivity | apply (K2 r Ir); now apply rootp_kind |].
      now apply reach_reaches.
    + auto.
    + destruct Q as [Q | [Q [x [Ix Fx]]]]; auto. right. split; auto. exists x. split.
      * now apply -> in_rev.
      * now apply unfetched.
  - right. split; [|auto]. destruct ord as [|x o]; auto. exfalso.
    apply (None N0 x). apply FR. simpl; auto.
Qed.

(** ** C93 *)

Lemma get_slots_in node : forall slots acc r, get_slots V veq kindof oval tval node slots acc = Some r ->
  forall v, In v r <-> In v acc \/ exists s vs, In s slots /\ direct_get V kindof oval tval node s = Some vs /\ In v vs.
Proof.
  induction slots as [|t sl IH]; simpl; intros acc r H v.
  - injection H as <-. split; auto. intros [I | [s [vs [[] _]]]]; auto.
  - destruct (direct_get V kindof oval tval node t) as [vs|] eqn:G; [|discriminate].
    rewrite (IH _ _ H v), (in_union V veq veq_ok). split.
    + intros [[I | I] | [s [vs' [Is X]]]]; eauto 8.
    + intros [I | [s [vs' [[<- | Is] [X Y]]]]]; eauto 8. rewrite G in X. injection X as <-. auto.
Qed.
Lemma get_slots_none node : forall slots acc, get_slots V veq kindof oval tval node slots acc = None ->
  exists s, In s slots /\ direct_get V kindof oval tval node s = None.
Proof.
  induction slots as [|t sl IH]; simpl; intros acc H; [discriminate|].
  destruct (direct_get V kindof oval tval node t) as [vs|] eqn:G; eauto.
  destruct (IH _ H) as [s [I X]]. eauto.
Qed.

(** The values a frame itself has for some slots: those in the table of an OID, or in the
    slotmap. *)
Definition has (slots : list V) (x v : V) : Prop :=
  exists s, In s slots /\
    ((kindof x = KOid /\ exists t, oval x = OTable t /\ In v (t s)) \/
     (kindof x <> KOid /\ In v (tval x s))).

Lemma direct_has slots x v :
  (exists s vs, In s slots /\ direct_get V kindof oval tval x s = Some vs /\ In v vs) <-> has slots x v.
Proof.
  unfold has, direct_get, oid_get, oidp. split.
  - intros [s [vs [Is [G Iv]]]]. exists s. split; auto.
    destruct (kindof x); try (right; split; [discriminate|]; congruence). left. split; auto.
    destruct (oval x) as [| | |t|]; try discriminate; injection G as <-; try (destruct Iv; fail). eauto.
  - intros [s [Is [[K [t [O I]]] | [K I]]]].
    + exists s, (t s). rewrite K, O. auto.
    + exists s, (tval x s). destruct (kindof x); try congruence; auto.
Qed.

(** What is inherited for some slots through others is what the reachable frames have; an
    error comes only from a reachable frame that can't be fetched. *)
Theorem C93_inherit : forall roots slots through U fuel,
  within U through roots -> length U <= fuel ->
  match inherit_values fuel roots slots through with
  | Some (Some r) => forall v, In v r <-> exists x, from through roots x /\ has slots x v
  | Some None => exists x, from through roots x /\ (broken through x \/ (kindof x = KOid /\ oval x = OErr))
  | None => False
  end.
Proof.
  intros roots slots through U fuel WI F.
  destruct (C92_walk _ (inherit_values_fn V veq kindof oval tval slots) roots through [] U fuel WI F)
    as [c [s [W [ND [FR [c' [CA HC]]]]]]].
  unfold WalkModel.inherit_values. rewrite W.
  assert (Run : forall ord d c d', calls (inherit_values_fn V veq kindof oval tval slots) ord d c d' ->
    c <> Stop /\
    (c = Go -> forall v, In v d' <-> In v d \/ exists x, In x ord /\ has slots x v) /\
    (c = Fail -> exists x, In x ord /\ kindof x = KOid /\ oval x = OErr)).
  { induction 1 as [d|n r d d1 c2 d2 E H [IH1 [IH2 IH3]]|n d c2 d1 E N1].
    - split; [discriminate|]. split; [|discriminate]. intros _ v. split; auto.
      intros [I | [x [[] _]]]; auto.
    - split; auto. split.
      + intros G v. rewrite (IH2 G v). unfold inherit_values_fn in E.
        destruct (get_slots V veq kindof oval tval n slots []) as [vs|] eqn:GS; [|discriminate].
        injection E as <-. rewrite (in_union V veq veq_ok).
        rewrite (get_slots_in _ _ _ _ GS v), direct_has. simpl. split.
        * intros [[I | [[] | I]] | [x [Ix Hx]]]; eauto 6.
        * intros [I | [x [[<- | Ix] Hx]]]; eauto 6.
      + intros G. destruct (IH3 G) as [x [I X]]. exists x. simpl; auto.
    - unfold inherit_values_fn in E.
      destruct (get_slots V veq kindof oval tval n slots []) as [vs|] eqn:GS.
      + injection E as <- <-. congruence.
      + injection E as <- <-. split; [discriminate|]. split; [discriminate|]. intros _.
        exists n. split; [simpl; auto|].
        apply get_slots_none in GS. destruct GS as [t [_ G]].
        unfold direct_get, oid_get, oidp in G. destruct (kindof n); try discriminate. split; auto.
        destruct (oval n); congruence. }
  destruct (Run _ _ _ _ CA) as [R1 [R2 R3]].
  destruct c.
  - destruct HC as [-> All]. intros v. rewrite (R2 eq_refl v). split.
    + intros [[] | [x [Ix Hx]]]. exists x. split; auto. apply FR. now apply in_rev.
    + intros [x [Fx Hx]]. right. exists x. split; auto. apply -> in_rev. auto.
  - destruct HC as [HC | [Vn No]]; [congruence|].
    rewrite Vn in CA. simpl in CA. inversion CA; subst. intros v. split.
    + intros [].
    + intros [x [Fx _]]. destruct (No x Fx).
  - destruct HC as [HC | [HC [x [Ix Bx]]]].
    + destruct (R3 HC) as [x [Ix K]]. exists x. split; auto. apply FR. now apply in_rev.
    + exists x. split; auto.
Qed.

Lemma direct_test_get x s v b : direct_test V veq kindof oval tval x s v = Some b ->
  b = true <-> exists vs y, direct_get V kindof oval tval x s = Some vs /\ In y v /\ In y vs.
Proof.
  unfold direct_test, direct_get, oid_test, oid_get, oidp. intros H.
  assert (EX : forall l, existsb (fun y => mem V veq y l) v = true <-> exists y, In y v /\ In y l).
  { intros l. rewrite existsb_exists. split; intros [y [I M]]; exists y; split; auto;
      now apply (mem_in V veq veq_ok). }
  destruct (kindof x).
  - destruct (oval x) as [| | |t|]; try discriminate; injection H as <-.
    + split; [discriminate|]. intros [vs [y [G [_ I]]]]. injection G as <-. destruct I.
    + rewrite EX. split; [intros [y Y]; eauto 6|]. intros [vs [y [G Y]]]. injection G as <-. eauto.
  - injection H as <-. rewrite EX. split; [intros [y Y]; eauto 6|].
    intros [vs [y [G Y]]]. injection G as <-. eauto.
  - injection H as <-. rewrite EX. split; [intros [y Y]; eauto 6|].
    intros [vs [y [G Y]]]. injection G as <-. eauto.
  - injection H as <-. rewrite EX. split; [intros [y Y]; eauto 6|].
    intros [vs [y [G Y]]]. injection G as <-. eauto.
Qed.

(** An OID that can't be tested: its value can't be fetched, it has no pool, or its value is
    not a table. *)
Definition untestable (x : V) : Prop :=
  kindof x = KOid /\ (oval x = OErr \/ oval x = ONoPool \/ oval x = OValue).

Lemma test_slots_spec x v : forall slots,
  match test_slots V veq kindof oval tval x slots v with
  | Some true => exists y, In y v /\ has slots x y
  | Some false => forall y, In y v -> ~ has slots x y
  | None => untestable x
  end.
Proof.
  induction slots as [|t sl IH]; simpl.
  - intros y _ [s [[] _]].
  - destruct (direct_test V veq kindof oval tval x t v) as [b|] eqn:T.
    + pose proof (direct_test_get _ _ _ _ T) as B. destruct b.
      * destruct (proj1 B eq_refl) as [vs [y [G [Iv I]]]]. exists y. split; auto.
        apply direct_has. exists t, vs. simpl; auto.
      * destruct (test_slots V veq kindof oval tval x sl v) as [[]|]; auto.
        -- destruct IH as [y [I [s [Is H]]]]. exists y. split; auto. exists s. simpl; auto.
        -- intros y I H. apply direct_has in H. destruct H as [s [vs [[<- | Is] [G Iy]]]].
           ++ assert (false = true) by (apply B; eauto). discriminate.
           ++ apply (IH y I). apply direct_has. eauto.
    + unfold direct_test, oid_test, oidp in T. unfold untestable.
      destruct (kindof x); try discriminate. split; auto. destruct (oval x); auto; discriminate.
Qed.

(** Whether a value is inherited: 1 if a reachable frame has one of the values asked for, 0
    if none has; -1 only if a reachable frame can't be fetched or tested. *)
Theorem C93_inheritsp : forall roots slots through v U fuel,
  within U through roots -> length U <= fuel ->
  match inherits_valuep fuel roots slots through v with
  | Some (Some true) => exists x y, from through roots x /\ In y v /\ has slots x y
  | Some (Some false) => forall x y, from through roots x -> In y v -> ~ has slots x y
  | Some None => exists x, from through roots x /\ (broken through x \/ untestable x)
  | None => False
  end.
Proof.
  intros roots slots through v U fuel WI F.
  destruct (C92_walk _ (inherits_valuesp_fn V veq kindof oval tval slots v) roots through false U fuel WI F)
    as [c [s [W [ND [FR [c' [CA HC]]]]]]].
  unfold WalkModel.inherits_valuep. rewrite W.
  assert (Run : forall ord d c d', calls (inherits_valuesp_fn V veq kindof oval tval slots v) ord d c d' ->
    (c = Go -> d' = d /\ forall x y, In x ord -> In y v -> ~ has slots x y) /\
    (c = Stop -> d' = true /\ exists x y, In x ord /\ In y v /\ has slots x y) /\
    (c = Fail -> exists x, In x ord /\ untestable x)).
  { induction 1 as [d|n r d d1 c2 d2 E H [IH1 [IH2 IH3]]|n d c2 d1 E N1].
    - split; [|split; discriminate]. intros _. split; auto.
    - unfold inherits_valuesp_fn in E. pose proof (test_slots_spec n v slots) as T.
      destruct (test_slots V veq kindof oval tval n slots v) as [[]|]; try discriminate.
      injection E as <-. split; [|split].
      + intros G. destruct (IH1 G) as [-> X]. split; auto. intros x y [<- | I]; auto.
      + intros G. destruct (IH2 G) as [-> [x [y [I X]]]]. split; auto. exists x, y. simpl; auto.
      + intros G. destruct (IH3 G) as [x [I X]]. exists x. simpl; auto.
    - unfold inherits_valuesp_fn in E. pose proof (test_slots_spec n v slots) as T.
      destruct (test_slots V veq kindof oval tval n slots v) as [[]|]; injection E as <- <-.
      + split; [discriminate|]. split; [|discriminate]. intros _. split; auto.
        destruct T as [y T]. exists n, y. simpl; auto.
      + congruence.
      + split; [discriminate|]. split; [discriminate|]. intros _. exists n. simpl; auto. }
  destruct (Run _ _ _ _ CA) as [R1 [R2 R3]].
  destruct c.
  - destruct HC as [-> All]. destruct (R1 eq_refl) as [-> X].
    intros x y Fx Iy. apply X; auto. apply -> in_rev. auto.
  - destruct HC as [-> | [Vn No]].
    + destruct (R2 eq_refl) as [-> [x [y [Ix X]]]]. exists x, y. split; auto. apply FR. now apply in_rev.
    + rewrite Vn in CA. simpl in CA. inversion CA; subst. intros x y Fx. destruct (No x Fx).
  - destruct HC as [HC | [HC [x [Ix Bx]]]].
    + destruct (R3 HC) as [x [Ix K]]. exists x. split; auto. apply FR. now apply in_rev.
    + exists x. split; auto.
Qed.

(** Whether there is a path to a frame: 1 if it is reachable (a root is reachable from
    itself), 0 if not; -1 only if a reachable frame can't be fetched. *)
Theorem C93_path : forall roots slots target U fuel,
  within U slots roots -> length U <= fuel ->
  match kpathp fuel roots slots [target] with
  | Some (Some true) => from slots roots target
  | Some (Some false) => ~ from slots roots target
  | Some None => exists x, from slots roots x /\ broken slots x
  | None => False
  end.
Proof.
  intros roots slots target U fuel WI F.
  destruct (C92_walk _ (pathp_fn V veq [target]) roots slots false U fuel WI F)
    as [c [s [W [ND [FR [c' [CA HC]]]]]]].
  unfold WalkModel.kpathp. rewrite W.
  assert (Run : forall ord d c d', calls (pathp_fn V veq [target]) ord d c d' ->
    (c = Go -> d' = d /\ ~ In target ord) /\ (c = Stop -> d' = true /\ In target ord) /\ c <> Fail).
  { induction 1 as [d|n r d d1 c2 d2 E H [IH1 [IH2 IH3]]|n d c2 d1 E N1].
    - split; [|split; discriminate]. intros _. split; auto.
    - unfold pathp_fn in E. destruct (veq n target) eqn:Q; try discriminate. injection E as <-.
      split; [|split; auto].
      + intros G. destruct (IH1 G) as [-> X]. split; auto. intros [<- | I]; auto.
        assert (veq n n = true) by now apply veq_ok. congruence.
      + intros G. destruct (IH2 G) as [-> X]. split; simpl; auto.
    - unfold pathp_fn in E. destruct (veq n target) eqn:Q; injection E as <- <-; [|congruence].
      apply veq_ok in Q. subst. split; [discriminate|]. split; [|discriminate]. simpl; auto. }
  destruct (Run _ _ _ _ CA) as [R1 [R2 R3]].
  destruct c.
  - destruct HC as [-> All]. destruct (R1 eq_refl) as [-> X]. intros Fx. apply X.
    apply -> in_rev. auto.
  - destruct HC as [-> | [Vn No]].
    + destruct (R2 eq_refl) as [-> X]. apply FR. now apply in_rev.
    + rewrite Vn in CA. simpl in CA. inversion CA; subst. auto.
  - destruct HC as [HC | [HC [x [Ix Bx]]]]; [congruence|]. exists x. split; auto.
Qed.

(** ** C95: bases *)

(** One or more steps. *)
Definition above (slots : list V) (x y : V) : Prop := exists z, step slots x z /\ reaches slots z y.

Lemma slot_values_in x : forall lat acc r, slot_values V veq kindof oval x lat acc = Some r ->
  forall v, In v r <-> In v acc \/ exists s vs, In s lat /\ frame_get V kindof oval x s = Some vs /\ In v vs.
Proof.
  induction lat as [|t sl IH]; simpl; intros acc r H v.
  - injection H as <-. split; auto. intros [I | [s [vs [[] _]]]]; auto.
  - destruct (frame_get V kindof oval x t) as [vs|] eqn:G; [|discriminate].
    rewrite (IH _ _ H v), (in_union V veq veq_ok). split.
    + intros [[I | I] | [s [vs' [Is X]]]]; eauto 8.
    + intros [I | [s [vs' [[<- | Is] [X Y]]]]]; eauto 8. rewrite G in X. injection X as <-. auto.
Qed.
Lemma slot_values_some x : forall lat acc, (forall s, In s lat -> frame_get V kindof oval x s <> None) ->
  exists r, slot_values V veq kindof oval x lat acc = Some r.
Proof.
  induction lat as [|t sl IH]; simpl; intros acc H; eauto.
  destruct (frame_get V kindof oval x t) as [vs|] eqn:G.
  - apply IH. auto.
  - exfalso. apply (H t); auto.
Qed.
Lemma member_values_in lat : forall coll acc r, member_values V veq kindof oval coll lat acc = Some r ->
  forall v, In v r <-> In v acc \/ exists x s vs, In x coll /\ In s lat /\
     frame_get V kindof oval x s = Some vs /\ In v vs.
Proof.
  induction coll as [|x coll IH]; simpl; intros acc r H v.
  - injection H as <-. split; auto. intros [I | [x [s [vs [[] _]]]]]; auto.
  - destruct (slot_values V veq kindof oval x lat acc) as [a1|] eqn:S1; [|discriminate].
    rewrite (IH _ _ H v), (slot_values_in _ _ _ _ S1 v). split.
    + intros [[I | [s [vs X]]] | [y [s [vs [Iy X]]]]]; eauto 9.
    + intros [I | [y [s [vs [[<- | Iy] X]]]]]; eauto 9.
Qed.
Lemma member_values_some lat : forall coll acc,
  (forall x s, In x coll -> In s lat -> frame_get V kindof oval x s <> None) ->
  exists r, member_values V veq kindof oval coll lat acc = Some r.
Proof.
  induction coll as [|x coll IH]; simpl; intros acc H; eauto.
  destruct (slot_values_some x lat acc) as [a1 S1]; [intros; apply H; auto|].
  rewrite S1. apply IH. auto.
Qed.

(** The frames a lattice can be walked on: OIDs whose values can be fetched and which have
    only OIDs in the slots of the lattice. *)
Definition pure (slots : list V) (x : V) : Prop :=
  kindof x = KOid /\ oval x <> OErr /\
  forall s t v, In s slots -> oval x = OTable t -> In v (t s) -> kindof v = KOid.

(** The basis of a collection: its members that can't be reached from a member in one or
    more steps. *)
Theorem C95_basis_partial : forall coll lattice U fuel,
  (forall x, In x coll -> In x U) ->
  (forall x y, In x U -> step lattice x y -> In y U) -> length U <= fuel ->
  (forall x y, In x coll -> reaches lattice x y -> pure lattice y) ->
  exists b, get_basis fuel coll lattice = Some (Some b) /\
    (forall x, In x b <-> In x coll /\ forall y, In y coll -> ~ above lattice y x) /\
    (forall x, In x coll -> In x b \/ exists y, In y coll /\ above lattice y x).
Proof.
  intros coll lat U fuel UC US F PU.
  assert (FG : forall x y s, In x coll -> reaches lat x y -> frame_get V kindof oval y s <> None).
  { intros x y s I R. destruct (PU x y I R) as [K [E _]]. unfold frame_get, oid_get, oidp.
    rewrite K. destruct (oval y); congruence. }
  destruct (member_values_some lat coll []) as [roots M].
  { intros x s I _. apply (FG x x s I). apply rt_refl. }
  pose proof (member_values_in _ _ _ _ M) as RI.
  assert (RS : forall v, In v roots <-> exists x, In x coll /\ step lat x v).
  { intros v. rewrite RI. split.
    - intros [[] | [x [s [vs [Ix [Is [G Iv]]]]]]]. exists x. split; auto.
      destruct (PU x x Ix (rt_refl _ _ _)) as [K [E P]].
      unfold frame_get, oid_get, oidp in G. rewrite K in G.
      destruct (oval x) as [| | |t|] eqn:O; try discriminate; injection G as <-; try (destruct Iv; fail).
      exists s, t. split; [auto|]. split; [auto|]. split; [auto|]. split; [auto|]. eapply P; eauto.
    - intros [x [Ix [s [t [Is [K [O [Iv _]]]]]]]]. right. exists x, s, (t s).
      unfold frame_get, oid_get, oidp. rewrite K, O. auto. }
  unfold WalkModel.get_basis. rewrite M.
  set (st0 := St [] tt []).
  destruct (collect_tree V veq kindof oval unit (no_walk V) fuel lat roots st0) as [c s|] eqn:CT.
  2:{ exfalso. eapply (collect_fuel V veq kindof oval veq_ok unit (no_walk V) lat U); [| | |exact CT].
      - intros x y I E. apply (US x y I). now apply edge_step.
      - intros r I. apply RS in I. destruct I as [x [Ix S1]]. eapply US; eauto.
      - eapply Nat.le_trans; [apply todo_le | exact F]. }
  apply (collect_spec V veq kindof oval veq_ok unit (no_walk V) lat fuel) in CT; [|reflexivity].
  destruct CT as [ord [E C]].
  assert (Sn : forall x, In x (seen s) -> exists y, In y coll /\ above lat y x).
  { intros x I. apply (ext_seen _ _ _ _ _ _ _ _ _ _ _ _ E) in I. destruct I as [I | []].
    destruct (x_reach _ _ _ _ _ _ _ _ _ _ _ _ E x I) as [r [Ir R]].
    apply RS in Ir. destruct Ir as [y [Iy S1]]. exists y. split; auto. exists r. split; auto.
    now apply reach_reaches. }
  destruct c.
  - destruct (C eq_refl) as [K1 K2].
    eexists. split; [reflexivity|]. split.
    2:{ intros x Ix. destruct (mem V veq x (seen s)) eqn:Mx.
        - right. apply Sn. now apply (mem_in V veq veq_ok).
        - left. apply filter_In. rewrite Mx. auto. }
    intros x. rewrite filter_In, negb_true_iff, (mem_out V veq veq_ok).
    split; intros [Ix H]; split; auto.
    + intros y Iy [z [S1 R]]. apply H. eapply closed_reach; [exact K1 | reflexivity | |].
      * apply (K2 z). apply RS. eauto.
      * now apply reach_reaches.
    + intros I. destruct (Sn x I) as [y [Iy A]]. apply (H y Iy A).
  - exfalso. destruct (x_run _ _ _ _ _ _ _ _ _ _ _ _ E) as [c' [R Q]]. simpl in Q. subst c'.
    assert (RG : forall o1 d c' d', replay V unit (no_walk V) o1 d = Some (c', d') -> c' = Go).
    { induction o1 as [|n o IH]; simpl; intros d c' d' H; [congruence|]. eauto. }
    apply RG in R. discriminate.
  - exfalso. destruct (x_run _ _ _ _ _ _ _ _ _ _ _ _ E) as [c' [R Q]]. simpl in Q.
    assert (RG : forall o1 d c' d', replay V unit (no_walk V) o1 d = Some (c', d') -> c' = Go).
    { induction o1 as [|n o IH]; simpl; intros d c1 d' H; [congruence|]. eauto. }
    assert (c' = Go) by (eapply RG; eauto). subst c'.
    destruct Q as [Q | [_ [x [Ix Fx]]]]; [discriminate|]. apply Fx. intros t It.
    destruct (x_reach _ _ _ _ _ _ _ _ _ _ _ _ E x Ix) as [r [Ir R1]].
    apply RS in Ir. destruct Ir as [y [Iy S1]]. apply (FG y x t Iy).
    eapply rt_trans; [apply rt_step; exact S1|]. now apply reach_reaches.
Qed.

(** If no frame is above itself, every member is in the basis or above it is one that is: the
    basis has the whole collection below it. *)
Theorem C95_covers_partial : forall coll lattice U fuel,
  (forall x, In x coll -> In x U) ->
  (forall x y, In x U -> step lattice x y -> In y U) -> length U <= fuel ->
  (forall x y, In x coll -> reaches lattice x y -> pure lattice y) ->
  (forall x, ~ above lattice x x) ->
  exists b, get_basis fuel coll lattice = Some (Some b) /\
    forall x, In x coll -> exists y, In y b /\ reaches lattice y x.
Proof.
  intros coll lat U fuel UC US F PU AC.
  destruct (C95_basis_partial coll lat U fuel UC US F PU) as [b [G [_ B]]].
  exists b. split; auto.
  assert (AT : forall x y z, above lat x y -> above lat y z -> above lat x z).
  { intros x y z [u [S1 R1]] [w [S2 R2]]. exists u. split; auto.
    eapply rt_trans; [exact R1|]. eapply rt_trans; [apply rt_step; exact S2 | exact R2]. }
  (* climbing: the members above get fewer *)
  assert (REM : forall (y : V) L, In y L ->
            exists L1, length L1 < length L /\ forall z, In z L -> z <> y -> In z L1).
  { intros y L I. exists (filter (fun z => negb (veq z y)) L). split.
    - assert (FT : forall l : list V, filter (fun _ => true) l = l)
        by (induction l; simpl; congruence).
      rewrite <- (FT L) at 2. apply (filter_length_lt _ _ _ _ y); auto.
      apply negb_false_iff. now apply veq_ok.
    - intros z Iz Nz. apply filter_In. split; auto. apply negb_true_iff.
      destruct (veq z y) eqn:Q; auto. apply veq_ok in Q. congruence. }
  assert (IND : forall n L x, length L = n -> In x coll ->
            (forall y, In y coll -> above lat y x -> In y L) ->
            exists y, In y b /\ reaches lat y x).
  { induction n as [n IH] using (well_founded_induction Wf_nat.lt_wf). intros L x Hn I HL.
    destruct (B x I) as [Ib | [y [Iy A]]].
    { exists x. split; auto. apply rt_refl. }
    destruct (REM y L (HL y Iy A)) as [L1 [LL HL1]].
    destruct (IH (length L1) ltac:(lia) L1 y eq_refl Iy) as [w [Iw R]].
    - intros z Iz Az. apply HL1.
      + apply HL; auto. eapply AT; eauto.
      + intros ->. apply (AC y Az).
    - exists w. split; auto.
      eapply rt_trans; [exact R|]. destruct A as [u [S1 R1]].
      eapply rt_trans; [apply rt_step; exact S1 | exact R1]. }
  intros x I. apply (IND (length coll) coll x eq_refl I). auto.
Qed.

(** ** C96: closures *)

(** A value has others for some slots: an OID with a table, a hash table that has the slots
    as keys, or a slot that is a hash table with the value as key. *)
Definition leads (slots : list V) (x y : V) : Prop :=
  exists s, In s slots /\
    match kindof x with
    | KOid => exists t, oval x = OTable t /\ In y (t s)
    | KHashtable => In y (tval x s)
    | _ => kindof s = KHashtable /\ In y (tval s x)
    end.
Definition leads_to (slots : list V) := clos_refl_trans V (leads slots).

Lemma kedge_leads slots x y : kedge V kindof oval tval slots x y <-> leads slots x y.
Proof.
  unfold kedge, leads, getter, frame_get, oid_get, oidp. split.
  - intros [s [vs [Is [G Iy]]]]. exists s. split; auto. destruct (kindof x).
    + destruct (oval x) as [| | |t|]; try discriminate; injection G as <-; try (destruct Iy; fail). eauto.
    + destruct (kindof s); injection G as <-; try (destruct Iy; fail). auto.
    + injection G as <-. auto.
    + destruct (kindof s); injection G as <-; try (destruct Iy; fail). auto.
  - intros [s [Is H]]. destruct (kindof x).
    + destruct H as [t [O I]]. exists s, (t s). rewrite O. auto.
    + destruct H as [K I]. exists s, (tval s x). rewrite K. auto.
    + exists s, (tval x s). auto.
    + destruct H as [K I]. exists s, (tval s x). rewrite K. auto.
Qed.
Lemma kreach_leads slots x y : kreach V kindof oval tval slots x y <-> leads_to slots x y.
Proof.
  split; intros H.
  - induction H as [|x y z E H IH]; [apply rt_refl|]. eapply rt_trans; [apply rt_step|exact IH].
    now apply kedge_leads.
  - apply clos_rt_rt1n. induction H as [x y E|x|x y z H1 IH1 H2 IH2].
    + apply rt_step. now apply kedge_leads.
    + apply rt_refl.
    + eapply rt_trans; eauto.
Qed.

(** What kno:kleene*-get gives for a root: the root and what can be reached from it, each
    value once; it ends on cycles; an error comes only from an OID that can't be fetched. *)
Theorem C96_star : forall root slots U fuel,
  (forall r, In r root -> In r U) -> (forall x y, In x U -> leads slots x y -> In y U) ->
  length U < fuel ->
  match kleene_star fuel root slots with
  | Some (Some vs) => NoDup vs /\ forall v, In v vs <-> exists r, In r root /\ leads_to slots r v
  | Some None => exists r x, In r root /\ leads_to slots r x /\ kindof x = KOid /\ oval x = OErr
  | None => False
  end.
Proof.
  intros root slots U fuel UR US F. unfold WalkModel.kleene_star.
  pose proof (kleene_get_ok V veq kindof oval veq_ok tval slots fuel root []) as K.
  destruct (kleene_get V veq kindof oval tval fuel slots root []) as [vs| |] eqn:E.
  - destruct K as [E1 [C1 F1]]. split; [apply (k_nodup _ _ _ _ E1); constructor|].
    intros v. split.
    + intros I. destruct (k_reach _ _ _ _ E1 v I) as [[] | [r [Ir R]]].
      exists r. split; auto. now apply kreach_leads.
    + intros [r [Ir R]]. eapply kclosed_reach; [exact C1 | apply F1; exact Ir |].
      now apply kreach_leads.
  - destruct K as [r [x [t [Ir [R [It G]]]]]]. exists r, x. rewrite <- kreach_leads. split; auto. split; auto.
    unfold getter, frame_get, oid_get, oidp in G. destruct (kindof x); try discriminate.
    + split; auto. destruct (oval x); congruence.
    + destruct (kindof t); discriminate.
    + destruct (kindof t); discriminate.
  - eapply (kleene_fuel V veq kindof oval veq_ok tval slots U); [| | |exact E].
    + intros x y I H. apply (US x y I). now apply kedge_leads.
    + exact UR.
    + eapply Nat.le_lt_trans; [apply ktodo_le | exact F].
Qed.

(** What kno:kleene+-get gives: what can be reached, without the roots. *)
Theorem C96_plus_partial : forall root slots U fuel,
  (forall r, In r root -> In r U) -> (forall x y, In x U -> leads slots x y -> In y U) ->
  length U < fuel ->
  (forall x y, In x root -> In y root -> ~ clos_trans V (leads slots) x y) ->
  match kleene_plus fuel root slots with
  | Some (Some vs) => forall v, In v vs <-> exists r, In r root /\ clos_trans V (leads slots) r v
  | Some None => exists r x, In r root /\ leads_to slots r x /\ kindof x = KOid /\ oval x = OErr
  | None => False
  end.
Proof.
  intros root slots U fuel UR US F AC.
  pose proof (C96_star root slots U fuel UR US F) as S1.
  unfold WalkModel.kleene_star in S1. unfold WalkModel.kleene_plus.
  destruct (kleene_get V veq kindof oval tval fuel slots root []) as [vs| |]; auto.
  destruct S1 as [_ S1]. intros v. rewrite filter_In, negb_true_iff, (mem_out V veq veq_ok), S1.
  split.
  - intros [[r [Ir R]] NI]. exists r. split; auto.
    apply clos_rt_rtn1 in R. inversion R as [|y z E R' ]; subst; [contradiction|].
    apply clos_rtn1_rt in R'. apply clos_rt_t with y; auto. apply t_step. exact E.
  - intros [r [Ir T]]. split.
    + exists r. split; auto. clear - T. induction T; [apply rt_step; auto | eapply rt_trans; eauto].
    + intros Iv. apply (AC r v Ir Iv T).
Qed.


(** ** C94: primitives *)

Notation pathp_prim := (pathp_prim V veq kindof oval).
Notation inherit_prim := (inherit_prim V veq kindof oval tval).

Lemma from_getroots slots frames x : from slots (getroots V kindof frames) x <-> from slots frames x.
Proof.
  unfold from, getroots. split; intros [r [I [K R]]]; exists r.
  - apply filter_In in I. tauto.
  - rewrite filter_In, rootp_kind. auto.
Qed.

(** get* gives the roots (what isn't a frame is left out) and, for each slot, the values of
    the frames that can be reached through this slot. *)
Theorem C94_getstar_partial : forall frames slots U fuel,
  (forall s, In s slots -> within U [s] frames) -> length U <= fuel ->
  (forall s x, In s slots -> from [s] frames x -> kindof x = KOid /\ oval x <> OErr) ->
  exists r, getstar fuel frames slots = Some (Some r) /\
    forall v, In v r <->
      (In v frames /\ (kindof v = KOid \/ kindof v = KMap)) \/
      exists s x, In s slots /\ from [s] frames x /\ has [s] x v.
Proof.
  intros frames slots U fuel WI F OK. unfold WalkModel.getstar.
  set (roots := getroots V kindof frames).
  assert (L : forall sl acc, incl sl slots -> exists r,
    getstar_loop V veq kindof oval tval fuel roots sl acc = Some (Some r) /\
    forall v, In v r <-> In v acc \/ exists s x, In s sl /\ from [s] frames x /\ has [s] x v).
  { induction sl as [|s sl IH]; simpl; intros acc L.
    - exists acc. split; auto. intros v. split; auto. intros [I | [s [x [[] _]]]]; auto.
    - assert (Is : In s slots) by (apply L; simpl; auto).
      assert (WS : within U [s] roots).
      { destruct (WI s Is) as [W1 W2]. split; auto. intros r I K. apply W1; auto.
        apply filter_In in I. tauto. }
      pose proof (C93_inherit roots [s] [s] U fuel WS F) as H.
      destruct (inherit_values fuel roots [s] [s]) as [[vs|]|]; [| |destruct H].
      + destruct (IH (union V veq acc vs)) as [r [E R]]; [intros z Hz; apply L; simpl; auto|].
        exists r. split; auto. intros v. rewrite R, (in_union V veq veq_ok), H. split.
        * intros [[I | [x [Fx Hx]]] | [t [x [It X]]]]; eauto 8.
          right. exists s, x. rewrite <- from_getroots. auto.
        * intros [I | [t [x [[<- | It] [Fx Hx]]]]]; eauto 9.
          left. right. exists x. unfold roots. rewrite from_getroots. auto.
      + exfalso. destruct H as [x [Fx Hx]]. unfold roots in Fx. rewrite from_getroots in Fx.
        destruct (OK s x Is Fx) as [K O]. destruct Hx as [[_ [Hx | Hx]] | [_ Hx]]; congruence. }
  destruct roots as [|r0 rs] eqn:Er.
  - exists []. split; auto. intros v. split; [intros []|].
    assert (N0 : forall t x, ~ from t frames x).
    { intros t x Fx. apply from_getroots in Fx. fold roots in Fx. rewrite Er in Fx.
      destruct Fx as [r [[] _]]. }
    intros [[I K] | [s [x [Is [Fx _]]]]].
    + assert (In v roots) by (unfold roots, getroots; rewrite filter_In, rootp_kind; auto).
      rewrite Er in H. exact H.
    + destruct (N0 _ _ Fx).
  - rewrite <- Er in *. destruct (L slots roots (incl_refl _)) as [r [E R]]. exists r.
    split; [rewrite Er in E |- *; exact E|].
    intros v. rewrite R. unfold roots at 1, getroots. rewrite filter_In, rootp_kind. tauto.
Qed.

(** path? of one target, if all frames that can be reached can be fetched: true exactly if
    the target can be reached. *)
Theorem C94_path_partial : forall frames slots target U fuel,
  within U slots frames -> length U <= fuel ->
  (forall x, from slots frames x -> ~ broken slots x) ->
  exists b, pathp_prim fuel frames slots [target] = Some b /\
    (b = true <-> from slots frames target).
Proof.
  intros frames slots target U fuel WI F OK. unfold WalkModel.pathp_prim.
  destruct (getroots V kindof frames) as [|r0 rs] eqn:Er.
  - exists false. split; auto. split; [discriminate|]. intros Fx. exfalso.
    apply from_getroots in Fx. rewrite Er in Fx. destruct Fx as [r [[] _]].
  - pose proof (C93_path frames slots target U fuel WI F) as H.
    destruct (kpathp fuel frames slots [target]) as [[[]|]|].
    + exists true. split; auto. tauto.
    + exists false. split; auto. split; [discriminate | tauto].
    + exfalso. destruct H as [x [Fx Bx]]. apply (OK x Fx Bx).
    + destruct H.
Qed.

(** Asking for a value and getting all values agree, if all frames that can be reached can
    be fetched and tested. *)
Theorem C94_agree_partial : forall roots slots through v U fuel,
  within U through roots -> length U <= fuel ->
  (forall x, from through roots x -> ~ broken through x /\ ~ untestable x) ->
  exists r b, inherit_values fuel roots slots through = Some (Some r) /\
    inherits_valuep fuel roots slots through [v] = Some (Some b) /\ (b = true <-> In v r).
Proof.
  intros roots slots through v U fuel WI F OK.
  pose proof (C93_inherit roots slots through U fuel WI F) as A.
  pose proof (C93_inheritsp roots slots through [v] U fuel WI F) as B.
  destruct (inherit_values fuel roots slots through) as [[r|]|]; [| |destruct A].
  2:{ exfalso. destruct A as [x [Fx [Bx | [K O]]]]; destruct (OK x Fx) as [O1 O2]; auto.
      apply O2. split; auto. }
  destruct (inherits_valuep fuel roots slots through [v]) as [[b|]|]; [| |destruct B].
  2:{ exfalso. destruct B as [x [Fx Bx]]. destruct (OK x Fx). tauto. }
  exists r, b. split; auto. split; auto. rewrite (A v). destruct b.
  - destruct B as [x [y [Fx [[<- | []] Hx]]]]. split; eauto.
  - split; [discriminate|]. intros [x [Fx Hx]]. exfalso. apply (B x v); simpl; auto.
Qed.

End Props.

Print Assumptions C92_walk.
Print Assumptions C93_inherit.
Print Assumptions C93_inheritsp.
Print Assumptions C93_path.
Print Assumptions C94_getstar_partial.
Print Assumptions C94_path_partial.
Print Assumptions C94_agree_partial.
Print Assumptions C95_basis_partial.
Print Assumptions C95_covers_partial.
Print Assumptions C96_star.
Print Assumptions C96_plus_partial.

(** ** Cases and witnesses *)

(** A small world: 0-9 are OIDs, 10-19 slotmaps, 20-29 hash tables, the others other values
    (30, 31, 32 the symbols PARENT, NAME, SPOUSE; from 40 strings). *)
Definition wkind (v : nat) : kind :=
  if v <? 10 then KOid else if v <? 20 then KMap else if v <? 30 then KHashtable else KOther.
Definition tbl (l : list (nat * list nat)) (s : nat) : list nat :=
  match find (fun e => fst e =? s) l with Some e => snd e | None => [] end.
(** 0, 1 and 2 are each other's parents in a ring, 3 has 0 for its parent and a string, 4
    has no pool, 5 can't be fetched, 6 is married to 7 whose parent is 8; 8 has the parent 9
    and a string before it, 9 has none. *)
Definition wval (v : nat) : oidval nat :=
  match v with
  | 0 => OTable (tbl [(30, [1]); (31, [40])])
  | 1 => OTable (tbl [(30, [2]); (31, [41; 42])])
  | 2 => OTable (tbl [(30, [0])])
  | 3 => OTable (tbl [(30, [43; 0; 4]); (31, [44])])
  | 4 => ONoPool
  | 5 => OErr
  | 6 => OTable (tbl [(32, [7])])
  | 7 => OTable (tbl [(30, [8])])
  | 8 => OTable (tbl [(30, [45; 9])])
  | 9 => OTable (tbl [(31, [46])])
  | _ => OEmpty
  end.
Definition wtbl (v s : nat) : list nat :=
  match v with
  | 10 => tbl [(30, [0]); (31, [47])] s
  | _ => []
  end.
Lemma nat_ok : forall a b, Nat.eqb a b = true <-> a = b.
Proof. apply Nat.eqb_eq. Qed.

Lemma wwithin : within nat wkind wval [0; 1; 2; 3; 4] [30] [3].
Proof.
  split.
  - intros r [<- | []] _. simpl. auto.
  - intros x y I [s [t [Is [_ [O [Iy K]]]]]]. simpl in Is. destruct Is as [<- | []].
    simpl in I. repeat (destruct I as [<- | I]); try destruct I;
      simpl in O; try discriminate; injection O as <-; simpl in Iy;
      repeat (destruct Iy as [<- | Iy]); try destruct Iy; simpl; auto 10; discriminate.
Qed.

(** A walk from 3 through PARENT: the ring is entered once, the string is passed over. *)
Example C92_walk_case :
  within nat wkind wval [0; 1; 2; 3; 4] [30] [3] /\
  walk_tree nat Nat.eqb wkind wval nat (fun _ d => (Go, S d)) 5 [3] [30] 0 =
    Done Go (St [4; 2; 1; 0; 3] 5 [4; 2; 1; 0; 3]) /\
  from nat wkind wval [30] [3] 2.
Proof.
  split; [apply wwithin|]. split; [reflexivity|].
  exists 3. split; [simpl; auto|]. split; [left; reflexivity|].
  apply rt_trans with 0; [apply rt_step; exists 30, (tbl [(30, [43; 0; 4]); (31, [44])])|
    apply rt_trans with 1; [apply rt_step; exists 30, (tbl [(30, [1]); (31, [40])])|
      apply rt_step; exists 30, (tbl [(30, [2]); (31, [41; 42])])]];
  simpl; auto 10.
Qed.
Example C93_inherit_case :
  inherit_values nat Nat.eqb wkind wval wtbl 5 [3] [31] [30] = Some (Some [44; 40; 41; 42]).
Proof. reflexivity. Qed.
Example C93_inheritsp_case :
  inherits_valuep nat Nat.eqb wkind wval wtbl 5 [0] [31] [30] [42] = Some (Some true) /\
  inherits_valuep nat Nat.eqb wkind wval wtbl 5 [0] [31] [30] [44] = Some (Some false) /\
  inherits_valuep nat Nat.eqb wkind wval wtbl 5 [3] [31] [30] [46] = Some None.
Proof. auto. Qed.
Example C93_path_case :
  kpathp nat Nat.eqb wkind wval 5 [3] [30] [2] = Some (Some true) /\
  kpathp nat Nat.eqb wkind wval 5 [0] [30] [3] = Some (Some false).
Proof. auto. Qed.
Example C94_getstar_partial_case :
  getstar nat Nat.eqb wkind wval wtbl 5 [0; 99] [30] = Some (Some [0; 1; 2]).
Proof. reflexivity. Qed.
Example C94_path_partial_case :
  pathp_prim nat Nat.eqb wkind wval 5 [0] [30] [2] = Some true /\
  pathp_prim nat Nat.eqb wkind wval 5 [0] [30] [3] = Some false.
Proof. auto. Qed.
Example C94_agree_partial_case :
  inherit_values nat Nat.eqb wkind wval wtbl 5 [0] [31] [30] = Some (Some [40; 41; 42]) /\
  inherits_valuep nat Nat.eqb wkind wval wtbl 5 [0] [31] [30] [41] = Some (Some true).
Proof. auto. Qed.
(** 6 is married to 7, and 7 has a parent: through SPOUSE the basis of 6, 7 and 9 is 6, 9. *)
Example C95_basis_partial_case :
  get_basis nat Nat.eqb wkind wval 10 [6; 7; 9] [32] = Some (Some [6; 9]).
Proof. reflexivity. Qed.
Lemma spouse_step x y : step nat wkind wval [32] x y -> x = 6 /\ y = 7.
Proof.
  intros [s [t [[<- | []] [_ [O [Iy _]]]]]].
  do 10 (destruct x as [|x]; [simpl in O; try discriminate; injection O as <-; simpl in Iy;
    first [destruct Iy as [<- | []]; auto; fail | destruct Iy]|]). discriminate.
Qed.
Lemma spouse_reaches x y : reaches nat wkind wval [32] x y -> x = y \/ (x = 6 /\ y = 7).
Proof.
  intros R. apply clos_rt_rt1n in R. destruct R as [|y z S1 R]; auto.
  apply spouse_step in S1. destruct S1 as [-> ->]. destruct R as [|y z S2 R]; auto.
  apply spouse_step in S2. destruct S2; discriminate.
Qed.
Example C95_covers_partial_case :
  (forall x y, In x [7; 6] -> reaches nat wkind wval [32] x y -> pure nat wkind wval [32] y) /\
  (forall x, ~ above nat wkind wval [32] x x) /\
  get_basis nat Nat.eqb wkind wval 10 [7; 6] [32] = Some (Some [6]) /\
  reaches nat wkind wval [32] 6 7.
Proof.
  split; [|split; [|split; [reflexivity|]]].
  - intros x y I R. assert (Y : y = 6 \/ y = 7).
    { apply spouse_reaches in R. simpl in I. lia. }
    destruct Y as [-> | ->]; (split; [reflexivity|]; split; [discriminate|]);
      intros s t v [<- | []] O Iv; simpl in O; injection O as <-; simpl in Iv; [|destruct Iv].
    destruct Iv as [<- | []]. reflexivity.
  - intros x [z [S1 R]]. apply spouse_step in S1. destruct S1 as [-> ->].
    apply spouse_reaches in R. lia.
  - apply rt_step. exists 32, (tbl [(32, [7])]). simpl; auto 10.
Qed.
Example C96_star_case :
  kleene_star nat Nat.eqb wkind wval wtbl 9 [3] [30] = Some (Some [4; 2; 1; 0; 43; 3]).
Proof. reflexivity. Qed.
Example C96_plus_partial_case :
  kleene_plus nat Nat.eqb wkind wval wtbl 9 [3] [30] = Some (Some [4; 2; 1; 0; 43]).
Proof. reflexivity. Qed.

(** path? from a slotmap is true for any target: the walk fails because kno_frame_get takes
    only OIDs, and the -1 of kno_pathp counts as true. *)
Theorem C94_path_error_refuted :
  exists frames slots target U fuel, within nat wkind wval U slots frames /\ length U <= fuel /\
    pathp_prim nat Nat.eqb wkind wval fuel frames slots [target] = Some true /\
    ~ from nat wkind wval slots frames target.
Proof.
  exists [10], [30], 7, [10], 1. split; [|split; [simpl; auto | split; [reflexivity|]]].
  - split; [intros r I _; exact I|]. intros x y [<- | []] [s [t [_ [K _]]]]. discriminate.
  - intros [r [[<- | []] [_ R]]]. apply clos_rt_rt1n in R. inversion R as [|y z E R']; subst.
    destruct E as [s [t [_ [K _]]]]. discriminate.
Qed.
Print Assumptions C94_path_error_refuted.

(** path? with several targets is false although one of them can be reached. *)
Theorem C94_path_choice_refuted :
  exists frames slots t1 t2 U fuel, within nat wkind wval U slots frames /\ length U <= fuel /\
    from nat wkind wval slots frames t1 /\
    pathp_prim nat Nat.eqb wkind wval fuel frames slots [t1; t2] = Some false.
Proof.
  exists [6], [32], 7, 9, [6; 7], 5. split; [|split; [simpl; auto | split; [|reflexivity]]].
  - split; [intros r [<- | []] _; simpl; auto|]. intros x y I [s [t [Is [_ [O [Iy _]]]]]].
    simpl in Is. destruct Is as [<- | []].
    simpl in I. repeat (destruct I as [<- | I]); try destruct I; simpl in O; injection O as <-;
      simpl in Iy; repeat (destruct Iy as [<- | Iy]); try destruct Iy; simpl; auto.
  - exists 6. split; [simpl; auto|]. split; [left; reflexivity|]. apply rt_step.
    exists 32, (tbl [(32, [7])]). simpl; auto 10.
Qed.
Print Assumptions C94_path_choice_refuted.

(** get* through several slots takes each by itself: 8 is the parent of the spouse of 6, but
    get* through SPOUSE and PARENT doesn't find it. *)
Theorem C94_getstar_refuted :
  exists frames slots v r, getstar nat Nat.eqb wkind wval wtbl 10 frames slots = Some (Some r) /\
    from nat wkind wval slots frames v /\ ~ In v r.
Proof.
  exists [6], [32; 30], 8, [6; 7]. split; [reflexivity|]. split.
  - exists 6. split; [simpl; auto|]. split; [left; reflexivity|].
    apply rt_trans with 7; [apply rt_step; exists 32, (tbl [(32, [7])]) |
      apply rt_step; exists 30, (tbl [(30, [8])])]; simpl; auto 10.
  - simpl. intuition discriminate.
Qed.
Print Assumptions C94_getstar_refuted.

(** inherit gives the frames it starts from besides what they have: the names inherited by 0
    include 0 itself. *)
Theorem C94_inherit_refuted :
  exists slots frames through r v, inherit_prim nat Nat.eqb wkind wval wtbl 99 10 slots frames through = Some r /\
    In v r /\ ~ (exists x, has nat wkind wval wtbl slots x v).
Proof.
  exists [31], [0], [30], [0; 40; 41; 42], 0. split; [reflexivity|]. split; [simpl; auto|].
  intros [x [s [Is H]]]. simpl in Is. destruct Is as [<- | []].
  destruct H as [[K [t [O I]]] | [K I]].
  - do 10 (destruct x as [|x]; [simpl in O; try discriminate; injection O as <-; simpl in I; intuition discriminate|]).
    discriminate.
  - do 10 (destruct x as [|x]; [simpl in I; exact I|]). destruct x as [|x]; simpl in I.
    + destruct I as [I | []]; discriminate.
    + exact I.
Qed.
Print Assumptions C94_inherit_refuted.

(** inherit doesn't signal that a frame couldn't be fetched: the error value (99) is among
    its results. *)
Theorem C94_inherit_error_refuted :
  exists slots frames through r,
    inherit_values nat Nat.eqb wkind wval wtbl 10 frames slots through = Some None /\
    inherit_prim nat Nat.eqb wkind wval wtbl 99 10 slots frames through = Some r /\ In 99 r.
Proof. exists [31], [5], [30], [5; 99]. simpl; auto. Qed.
Print Assumptions C94_inherit_error_refuted.

(** A value that is inherited is not found by asking for it: the OID 4, which is passed
    before it, has no pool, which is an error for a test but not for a get. *)
Theorem C94_agree_refuted :
  exists roots slots through v r,
    inherit_values nat Nat.eqb wkind wval wtbl 10 roots slots through = Some (Some r) /\ In v r /\
    inherits_valuep nat Nat.eqb wkind wval wtbl 10 roots slots through [v] = Some None.
Proof. exists [4; 0], [31], [30], 42, [40; 41; 42]. simpl; auto 10. Qed.
Print Assumptions C94_agree_refuted.

(** The basis of a ring is empty: nothing in it has the members below it. *)
Theorem C95_cycle_refuted :
  exists coll lattice, coll <> [] /\ get_basis nat Nat.eqb wkind wval 10 coll lattice = Some (Some []) /\
    (forall x y, In x coll -> reaches nat wkind wval lattice x y -> pure nat wkind wval lattice y).
Proof.
  exists [0; 1; 2], [30]. split; [discriminate|]. split; [reflexivity|].
  assert (C : forall x y, reaches nat wkind wval [30] x y -> x < 3 -> y < 3).
  { induction 1 as [x y [s [t [Is [K [O [Iy Ky]]]]]]|x|x y z H1 IH1 H2 IH2]; auto. intros L.
    simpl in Is. destruct Is as [<- | []].
    destruct x as [|[|[|x]]]; [| | |lia]; simpl in O; injection O as <-; simpl in Iy;
      destruct Iy as [<- | []]; lia. }
  intros x y I R. assert (L : y < 3) by (apply (C x y R); simpl in I; lia).
  destruct y as [|[|[|y]]]; [| | |lia]; (split; [reflexivity|]; split; [discriminate|]);
    intros s t v Is O Iv; simpl in Is; destruct Is as [<- | []]; simpl in O; injection O as <-;
    simpl in Iv; destruct Iv as [<- | []]; reflexivity.
Qed.
Print Assumptions C95_cycle_refuted.

(** A value of a lattice slot that isn't an OID ends the collection, and nobody looks at the
    error: 9 is in the basis of 8 and 9 although it is a parent of 8, because 8 has a string
    among its parents. *)
Theorem C95_value_refuted :
  exists coll lattice b x y, get_basis nat Nat.eqb wkind wval 10 coll lattice = Some (Some b) /\
    In x b /\ In y coll /\ step nat wkind wval lattice y x.
Proof.
  exists [8; 9], [30], [8; 9], 9, 8. split; [reflexivity|]. split; [simpl; auto|]. split; [simpl; auto|].
  exists 30, (tbl [(30, [45; 9])]). simpl; auto 10.
Qed.
Print Assumptions C95_value_refuted.

(** kno:kleene+-get leaves out a root that can be reached from itself. *)
Theorem C96_plus_refuted :
  exists root slots vs r, In r root /\ clos_trans nat (leads nat wkind wval wtbl slots) r r /\
    kleene_plus nat Nat.eqb wkind wval wtbl 10 root slots = Some (Some vs) /\ ~ In r vs.
Proof.
  exists [0], [30], [2; 1], 0. split; [simpl; auto|]. split; [|split; [reflexivity | simpl; intuition discriminate]].
  apply t_trans with 1; [apply t_step; exists 30; simpl; split; [auto|]; eexists; split; [reflexivity | simpl; auto] |].
  apply t_trans with 2; [apply t_step; exists 30; simpl; split; [auto|]; eexists; split; [reflexivity | simpl; auto] |].
  apply t_step; exists 30; simpl; split; [auto|]; eexists; split; [reflexivity | simpl; auto].
Qed.
Print Assumptions C96_plus_refuted.

(** * Lemmas about walks over frames (WalkModel). *)

From Coq Require Import List Bool Arith Lia Relations.
From Verif Require Import WalkModel.
Import ListNotations.

Section Proofs.

Variable V : Type.
Variable veq : V -> V -> bool.
Variable kindof : V -> kind.
Variable oval : V -> oidval V.
Hypothesis veq_ok : forall a b, veq a b = true <-> a = b.

Notation mem := (mem V veq).
Notation oidp := (oidp V kindof).
Notation frame_get := (frame_get V kindof oval).
Notation union := (union V veq).

Lemma mem_in : forall x l, mem x l = true <-> In x l.
Proof.
  intros x l. unfold WalkModel.mem. rewrite existsb_exists. split.
  - intros [y [I E]]. apply veq_ok in E. now subst.
  - intros I. exists x. split; [auto | now apply veq_ok].
Qed.
Lemma mem_out : forall x l, mem x l = false <-> ~ In x l.
Proof.
  intros x l. rewrite <- mem_in. destruct (mem x l); split; intros; try congruence.
Qed.
Lemma in_union : forall x a b, In x (union a b) <-> In x a \/ In x b.
Proof.
  intros x a b. unfold WalkModel.union. rewrite in_app_iff, filter_In.
  split.
  - intros [I | [I _]]; auto.
  - intros [I | I]; auto. destruct (mem x a) eqn:E.
    + left. now apply mem_in.
    + right. split; auto.
Qed.
Lemma NoDup_app_intro (A : Type) (a b : list A) :
  NoDup a -> NoDup b -> (forall x, In x a -> In x b -> False) -> NoDup (a ++ b).
Proof.
  induction 1; simpl; auto. intros NB H1. constructor.
  - rewrite in_app_iff. intros [I | I]; auto. eapply H1; eauto.
  - apply IHNoDup; auto. intros; eapply H1; eauto.
Qed.

Lemma NoDup_union : forall a b, NoDup a -> NoDup b -> NoDup (union a b).
Proof.
  intros a b NA NB. apply NoDup_app_intro; auto; [now apply NoDup_filter|].
  intros x I J. apply filter_In in J. destruct J as [_ J].
  rewrite negb_true_iff, mem_out in J. auto.
Qed.

Section Keep.
Variable D : Type.
Variable walk : V -> D -> code * D.
Variable slots : list V.
Notation keep_walking := (keep_walking V veq kindof oval D walk).
Notation each_value := (each_value V veq kindof D).
Notation each_slot := (each_slot V veq kindof oval D).
Notation state := (state V D).

(** One step from a node to an OID that is a value of one of its slots. *)
Definition edge (x y : V) : Prop :=
  exists s vs, In s slots /\ frame_get x s = Some vs /\ In y vs /\ oidp y = true.
Definition reach := clos_refl_trans_1n V edge.
Definition fetched (x : V) : Prop := forall s, In s slots -> frame_get x s <> None.

Lemma reach_trans x y z : reach x y -> reach y z -> reach x z.
Proof.
  unfold reach. intros A B. apply clos_rt_rt1n. eapply rt_trans; apply clos_rt1n_rt; eauto.
Qed.
Lemma edge_reach x y z : edge x y -> reach y z -> reach x z.
Proof. intros. econstructor 2; eauto. Qed.

(** The calls of the walk function one after another; nothing may follow a call that isn't
    positive. *)
Fixpoint replay (ord : list V) (d : D) : option (code * D) :=
  match ord with
  | [] => Some (Go, d)
  | n :: r =>
    match walk n d with
    | (Go, d') => replay r d'
    | (c, d') => match r with [] => Some (c, d') | _ => None end
    end
  end.
Lemma replay_app a b d d' c :
  replay a d = Some (Go, d') -> replay b d' = Some c -> replay (a ++ b) d = Some c.
Proof.
  revert d. induction a as [|n a IH]; simpl; intros d.
  - intros [= ->]; auto.
  - destruct (walk n d) as [[] d1].
    + apply IH.
    + destruct a; discriminate.
    + destruct a; discriminate.
Qed.

Definition code_ok (c c' : code) (ord : list V) : Prop :=
  match c with
  | Go => c' = Go
  | Stop => c' = Stop
  | Fail => c' = Fail \/ (c' = Go /\ exists x, In x ord /\ ~ fetched x)
  end.

(** What happened between two states: [ord] is the list of the nodes walked, in this order. *)
Record ext (P : V -> Prop) (c : code) (s s' : state) (ord : list V) (base : list V) : Prop := {
  x_seen : seen s' = rev ord ++ seen s;
  x_visited : visited s' = rev ord ++ visited s;
  x_nodup : NoDup ord;
  x_new : forall x, In x ord -> ~ In x (seen s);
  x_reach : forall x, In x ord -> P x;
  x_run : exists c', replay ord (data s) = Some (c', data s') /\ code_ok c c' (base ++ ord) }.

Definition closed (s s' : state) : Prop :=
  forall x, In x (seen s') -> In x (seen s) \/
    (fetched x /\ forall y, edge x y -> In y (seen s')).

Lemma ext_nil P s base : ext P Go s s [] base.
Proof.
  constructor; simpl; auto; try constructor; try tauto.
  exists Go. split; simpl; auto.
Qed.

Lemma ext_seen P c s s' ord base : ext P c s s' ord base ->
  forall x, In x (seen s') <-> In x ord \/ In x (seen s).
Proof.
  intros E x. rewrite (x_seen _ _ _ _ _ _ E), in_app_iff, <- in_rev. tauto.
Qed.

Lemma ext_app P c s s1 s2 o1 o2 base :
  ext P Go s s1 o1 base -> ext P c s1 s2 o2 base -> ext P c s s2 (o1 ++ o2) base.
Proof.
  intros E1 E2. pose proof (ext_seen _ _ _ _ _ _ E1) as S1.
  destruct E1 as [a1 b1 n1 f1 r1 [c1 [p1 q1]]], E2 as [a2 b2 n2 f2 r2 [c2 [p2 q2]]].
  simpl in q1. subst c1. constructor.
  - rewrite a2, a1, rev_app_distr, app_assoc. reflexivity.
  - rewrite b2, b1, rev_app_distr, app_assoc. reflexivity.
  - apply NoDup_app_intro; auto. intros x I1 I2. apply (f2 x I2). apply S1. auto.
  - intros x. rewrite in_app_iff. intros [I | I]; auto.
    intro I'. apply (f2 x I). apply S1. auto.
  - intros x. rewrite in_app_iff. intros [I | I]; auto.
  - exists c2. split; [eapply replay_app; eauto|].
    destruct c; simpl in *; auto. destruct q2 as [q2 | [q2 [x [Ix Fx]]]]; auto.
    right. split; auto. exists x. split; auto.
    rewrite !in_app_iff in *. tauto.
Qed.

Lemma ext_weaken (P Q : V -> Prop) c s s' ord base :
  (forall x, P x -> Q x) -> ext P c s s' ord base -> ext Q c s s' ord base.
Proof. intros H [? ? ? ? ? ?]. constructor; auto. Qed.

Lemma ext_base P c s s' ord base base' :
  (forall x, In x base -> In x base') -> ext P c s s' ord base -> ext P c s s' ord base'.
Proof.
  intros H [? ? ? ? ? [c' [r q]]]. constructor; auto. exists c'. split; auto.
  destruct c; simpl in *; auto. destruct q as [q | [q [x [Ix Fx]]]]; auto.
  right. split; auto. exists x. rewrite in_app_iff in *. intuition auto.
Qed.

Lemma closed_app s s1 s2 P c o base :
  closed s s1 -> closed s1 s2 -> ext P c s1 s2 o base -> closed s s2.
Proof.
  intros A B E x I. destruct (B x I) as [I1 | [F Y]]; auto.
  destruct (A x I1) as [I0 | [F Y]]; auto. right. split; auto.
  intros y Hy. apply (ext_seen _ _ _ _ _ _ E). right. auto.
Qed.

(** The result of a part of a walk. *)
Definition rec_ok (rec : V -> state -> res V D) : Prop :=
  forall node s c s', rec node s = Done c s' ->
    exists ord, ext (reach node) c s s' ord [] /\ (c = Go -> closed s s' /\ In node (seen s')).

Lemma each_value_ok rec (R : rec_ok rec) : forall vs s c s',
  each_value rec vs s = Done c s' ->
  exists ord, ext (fun x => exists y, In y vs /\ oidp y = true /\ reach y x) c s s' ord [] /\
    (c = Go -> closed s s' /\ forall y, In y vs -> oidp y = true -> In y (seen s')).
Proof.
  induction vs as [|v vs IH]; simpl; intros s c s' H.
  - injection H as <- <-. exists []. split; [apply ext_nil|].
    intros _. split; [|tauto]. intros x I; auto.
  - destruct (oidp v) eqn:O; simpl in H.
    2:{ apply IH in H. destruct H as [ord [E C]]. exists ord. split.
        - eapply ext_weaken; [|exact E]. intros x [y [I [A B]]]. eauto.
        - intros G. destruct (C G) as [C1 C2]. split; auto.
          intros y [<- | I]; [congruence | auto]. }
    destruct (mem v (seen s)) eqn:M.
    { apply IH in H. destruct H as [ord [E C]]. exists ord. split.
      - eapply ext_weaken; [|exact E]. intros x [y [I [A B]]]. eauto.
      - intros G. destruct (C G) as [C1 C2]. split; auto.
        intros y [<- | I]; auto. intros _. apply (ext_seen _ _ _ _ _ _ E). right.
        now apply mem_in. }
    destruct (rec v s) as [c1 s1|] eqn:Rv; [|discriminate].
    destruct (R _ _ _ _ Rv) as [o1 [E1 C1]].
    assert (W : forall x, reach v x -> exists y, (v = y \/ In y vs) /\ oidp y = true /\ reach y x)
      by (intros; exists v; auto).
    destruct c1.
    + apply IH in H. destruct H as [o2 [E2 C2]]. exists (o1 ++ o2). split.
      * eapply ext_app; [eapply ext_weaken; [|exact E1]; auto|].
        eapply ext_weaken; [|exact E2]. intros x [y [I [A B]]]. eauto.
      * intros G. destruct (C1 eq_refl) as [K1 K2], (C2 G) as [K3 K4]. split.
        -- eapply closed_app; eauto.
        -- intros y [<- | I]; auto. intros _. apply (ext_seen _ _ _ _ _ _ E2). auto.
    + injection H as <- <-. exists o1. split; [eapply ext_weaken; [|exact E1]; auto | discriminate].
    + injection H as <- <-. exists o1. split; [eapply ext_weaken; [|exact E1]; auto | discriminate].
Qed.

Lemma each_slot_ok rec (R : rec_ok rec) node : forall sl s c s',
  incl sl slots ->
  each_slot rec node sl s = Done c s' ->
  exists ord, ext (reach node) c s s' ord [node] /\
    (c = Go -> closed s s' /\ forall t, In t sl -> exists vs, frame_get node t = Some vs /\
        forall y, In y vs -> oidp y = true -> In y (seen s')).
Proof.
  induction sl as [|t sl IH]; simpl; intros s c s' L H.
  - injection H as <- <-. exists []. split; [apply ext_nil|]. intros _. split; [|tauto]. intros x I; auto.
  - assert (Lt : In t slots) by (apply L; simpl; auto).
    assert (Ll : incl sl slots) by (intros z Hz; apply L; simpl; auto).
    destruct (frame_get node t) as [vs|] eqn:F.
    2:{ injection H as <- <-. exists []. split; [|discriminate].
        constructor; simpl; auto; try constructor; try tauto.
        exists Go. split; auto. right. split; auto. exists node. split; [simpl; auto|].
        intros K. apply (K t Lt F). }
    destruct (each_value rec vs s) as [c1 s1|] eqn:Ev; [|discriminate].
    apply (each_value_ok rec R) in Ev. destruct Ev as [o1 [E1 C1]].
    assert (E1' : ext (reach node) c1 s s1 o1 [node]).
    { eapply ext_base; [|eapply ext_weaken; [|exact E1]]; [simpl; tauto|].
      intros x [y [I [O Ry]]]. eapply edge_reach; eauto. exists t, vs. auto. }
    destruct c1.
    + apply (IH s1 c s' Ll) in H. destruct H as [o2 [E2 C2]]. exists (o1 ++ o2). split.
      * eapply ext_app; eauto.
      * intros G. destruct (C1 eq_refl) as [K1 K2], (C2 G) as [K3 K4]. split.
        -- eapply closed_app; eauto.
        -- intros t' [<- | I]; [|auto]. exists vs. split; auto. intros y Iy Oy.
           apply (ext_seen _ _ _ _ _ _ E2). auto.
    + injection H as <- <-. exists o1. split; [auto | discriminate].
    + injection H as <- <-. exists o1. split; [auto | discriminate].
Qed.

Lemma keep_walking_ok : forall fuel, rec_ok (keep_walking fuel slots).
Proof.
  induction fuel as [|k IH]; intros node s c s' H; simpl in H.
  - destruct (mem node (seen s)) eqn:M; [|discriminate]. injection H as <- <-.
    exists []. split; [apply ext_nil|]. intros _. split; [intros x I; auto | now apply mem_in].
  - destruct (mem node (seen s)) eqn:M.
    { injection H as <- <-.
      exists []. split; [apply ext_nil|]. intros _. split; [intros x I; auto | now apply mem_in]. }
    apply mem_out in M.
    assert (Single : forall c1 d, walk node (data s) = (c1, d) -> c1 <> Go ->
      ext (reach node) c1 s (St (node :: seen s) d (node :: visited s)) [node] []).
    { intros c1 d W N1. constructor; simpl; auto.
      - constructor; auto; constructor.
      - intros x [<- | []]; auto.
      - intros x [<- | []]. constructor.
      - exists c1. rewrite W. destruct c1; [congruence| |]; simpl; auto. }
    destruct (walk node (data s)) as [c1 d] eqn:W. destruct c1.
    2,3: injection H as <- <-; exists [node]; split; [apply Single; congruence | discriminate].
    apply (each_slot_ok _ IH node slots _ _ _ (incl_refl _)) in H.
    destruct H as [o [E C]]. exists (node :: o). split.
    + pose proof (ext_seen _ _ _ _ _ _ E) as S1.
      destruct E as [a b n f r [c' [p q]]]. simpl in *. constructor; simpl.
      * rewrite a, <- app_assoc. reflexivity.
      * rewrite b, <- app_assoc. reflexivity.
      * constructor; auto. intro I. apply (f node I). auto.
      * intros x [<- | I]; auto.
        intros I'. apply (f x I). auto.
      * intros x [<- | I]; auto. constructor.
      * exists c'. rewrite W. split; auto.
    + intros G. destruct (C G) as [K1 K2]. split.
      * intros x I. destruct (K1 x I) as [I1 | H1]; [|auto]. simpl in I1.
        destruct I1 as [<- | I1]; auto. right. split.
        -- intros t It. destruct (K2 t It) as [vs [F _]]. congruence.
        -- intros y [t [vs [It [F [Iy O]]]]]. destruct (K2 t It) as [vs' [F' Y]].
           rewrite F in F'. injection F' as <-. auto.
      * apply (ext_seen _ _ _ _ _ _ E). simpl. auto.
Qed.

(** *** Enough fuel *)

Variable U : list V.
Hypothesis Uclosed : forall x y, In x U -> edge x y -> In y U.

Definition todo (s : state) : nat := length (filter (fun v => negb (mem v (seen s))) U).

Lemma filter_length_le (A : Type) (f g : A -> bool) l :
  (forall x, In x l -> f x = true -> g x = true) -> length (filter f l) <= length (filter g l).
Proof.
  induction l as [|a l IH]; simpl; intros H; auto.
  assert (IH' := IH (fun x I => H x (or_intror I))).
  destruct (f a) eqn:F; [rewrite (H a (or_introl eq_refl) F); simpl; lia|].
  destruct (g a); simpl; lia.
Qed.
Lemma filter_length_lt (A : Type) (f g : A -> bool) l a :
  (forall x, In x l -> f x = true -> g x = true) -> In a l -> f a = false -> g a = true ->
  length (filter f l) < length (filter g l).
Proof.
  induction l as [|b l IH]; simpl; intros H I Fa Ga; [tauto|].
  assert (L := filter_length_le A f g l (fun x I => H x (or_intror I))).
  destruct I as [<- | I].
  - rewrite Fa, Ga. simpl. lia.
  - assert (IH' := IH (fun x I => H x (or_intror I)) I Fa Ga).
    destruct (f b) eqn:F; [rewrite (H b (or_introl eq_refl) F); simpl; lia|].
    destruct (g b); simpl; lia.
Qed.

Lemma todo_mono s s' : (forall x, In x (seen s) -> In x (seen s')) -> todo s' <= todo s.
Proof.
  intros H. apply filter_length_le. intros x _.
  rewrite !negb_true_iff, !mem_out. auto.
Qed.

Lemma ext_mono P c s s' o b : ext P c s s' o b -> todo s' <= todo s.
Proof. intros E. apply todo_mono. intros x I. apply (ext_seen _ _ _ _ _ _ E). auto. Qed.

Lemma fuel_enough : forall fuel node s, In node U -> todo s <= fuel ->
  keep_walking fuel slots node s <> Out.
Proof.
  induction fuel as [|k IH]; intros node s I T; simpl.
  - destruct (mem node (seen s)) eqn:M; [discriminate|]. exfalso.
    unfold todo in T. apply Nat.le_0_r in T. apply length_zero_iff_nil in T.
    assert (X : In node (filter (fun v => negb (mem v (seen s))) U))
      by (apply filter_In; rewrite M; auto).
    rewrite T in X. exact X.
  - destruct (mem node (seen s)) eqn:M; [discriminate|].
    destruct (walk node (data s)) as [[] d]; try discriminate.
    set (s1 := St (node :: seen s) d (node :: visited s)).
    assert (T1 : todo s1 <= k).
    { assert (todo s1 < todo s); [|lia]. apply (filter_length_lt _ _ _ _ node); auto.
      - intros x _. rewrite !negb_true_iff, !mem_out. simpl. tauto.
      - apply negb_false_iff, mem_in. simpl. auto.
      - rewrite M. reflexivity. }
    assert (Ev : forall vs s2, (forall v, In v vs -> oidp v = true -> In v U) -> todo s2 <= k ->
               each_value (keep_walking k slots) vs s2 <> Out).
    { induction vs as [|v vs IHv]; simpl; intros s2 Hv T2; [discriminate|].
      destruct (oidp v) eqn:O; simpl; [|apply IHv; auto].
      destruct (mem v (seen s2)); [apply IHv; auto|].
      destruct (keep_walking k slots v s2) as [c s3|] eqn:K.
      - destruct c; try discriminate. apply IHv; auto.
        destruct (keep_walking_ok k _ _ _ _ K) as [o [E _]].
        apply ext_mono in E. lia.
      - exfalso. eapply IH; [| |exact K]; auto. }
    assert (Es : forall sl s2, incl sl slots -> todo s2 <= k ->
               each_slot (keep_walking k slots) node sl s2 <> Out).
    { induction sl as [|t sl IHs]; simpl; intros s2 L T2; [discriminate|].
      destruct (frame_get node t) as [vs|] eqn:F; [|discriminate].
      assert (Hv : forall v, In v vs -> oidp v = true -> In v U).
      { intros v Iv O. apply (Uclosed node v I). exists t, vs. split; [|auto]. apply L; simpl; auto. }
      destruct (each_value (keep_walking k slots) vs s2) as [c s3|] eqn:K.
      - destruct c; try discriminate. apply IHs; [intros z Hz; apply L; simpl; auto|].
        apply (each_value_ok _ (keep_walking_ok k)) in K. destruct K as [o [E _]].
        apply ext_mono in E. lia.
      - exfalso. eapply Ev; [exact Hv | exact T2 | exact K]. }
    apply Es; [apply incl_refl | auto].
Qed.

(** *** The roots *)

Notation rootp := (rootp V kindof).
Notation walk_roots := (walk_roots V veq kindof oval D walk).


Lemma walk_roots_spec fuel : forall roots last s c s',
  last <> Fail ->
  walk_roots fuel slots roots last s = Done c s' ->
  exists ord c1,
    ext (fun x => exists r, In r roots /\ rootp r = true /\ reach r x) c1 s s' ord [] /\
    (c = c1 \/ (c1 = Go /\ c = last /\ existsb rootp roots = false)) /\
    (c1 = Go -> closed s s' /\ forall r, In r roots -> rootp r = true -> In r (seen s')).
Proof.
  induction roots as [|r roots IH]; simpl; intros last s c s' NL H.
  - injection H as <- <-. exists [], Go. split; [apply ext_nil|]. split; [auto|].
    intros _. split; [intros x I; auto | tauto].
  - destruct (rootp r) eqn:O; simpl.
    2:{ apply IH in H; auto. destruct H as [o [c1 [E [Hc C]]]]. exists o, c1.
        split; [eapply ext_weaken; [|exact E]; intros x [y [I A]]; eauto|].
        split; [exact Hc|]. intros G. destruct (C G). split; auto.
        intros y [<- | I]; [congruence | auto]. }
    destruct (keep_walking fuel slots r s) as [c1 s1|] eqn:K; [|discriminate].
    destruct (keep_walking_ok fuel _ _ _ _ K) as [o1 [E1 C1]].
    assert (E1' : ext (fun x => exists r0, (r = r0 \/ In r0 roots) /\ rootp r0 = true /\ reach r0 x)
                      c1 s s1 o1 []) by (eapply ext_weaken; [|exact E1]; intros x Hx; exists r; auto).
    destruct c1.
    + apply IH in H; [|discriminate]. destruct H as [o [c2 [E [Hc C]]]].
      exists (o1 ++ o), c2. split; [|split].
      * eapply ext_app; [exact E1'|].
        eapply ext_weaken; [|exact E]; intros x [y [I A]]; eauto.
      * left. destruct Hc as [Hc | [Hc1 [Hc2 _]]]; congruence.
      * intros G. destruct (C1 eq_refl) as [K1 K2], (C G) as [K3 K4]. split.
        -- eapply closed_app; eauto.
        -- intros y [<- | I]; auto. intros _. apply (ext_seen _ _ _ _ _ _ E). auto.
    + injection H as <- <-. exists o1, Stop. split; [auto|]. split; [auto | discriminate].
    + injection H as <- <-. exists o1, Fail. split; [auto|]. split; [auto | discriminate].
Qed.

Lemma walk_roots_fuel fuel : forall roots last s,
  (forall r, In r roots -> rootp r = true -> In r U) -> todo s <= fuel ->
  walk_roots fuel slots roots last s <> Out.
Proof.
  induction roots as [|r roots IH]; simpl; intros last s H T; [discriminate|].
  destruct (rootp r) eqn:O; [|apply IH; auto].
  destruct (keep_walking fuel slots r s) as [c1 s1|] eqn:K.
  - destruct c1; try discriminate. apply IH; auto.
    destruct (keep_walking_ok fuel _ _ _ _ K) as [o [E _]]. apply ext_mono in E. lia.
  - exfalso. eapply fuel_enough; [| |exact K]; auto.
Qed.

Lemma closed_reach s s' x y : closed s s' -> seen s = [] -> In x (seen s') -> reach x y -> In y (seen s').
Proof.
  intros C N I R. induction R; auto. apply IHR. destruct (C x I) as [I0 | [_ Y]]; auto.
  rewrite N in I0. destruct I0.
Qed.

Lemma todo_le s : todo s <= length U.
Proof.
  unfold todo. clear. induction U as [|x l IH]; simpl; auto.
  destruct (negb _); simpl; lia.
Qed.

(** *** kno_collect_tree *)

Notation collect_tree := (collect_tree V veq kindof oval D walk).

Lemma collect_spec fuel (W : forall n d, fst (walk n d) = Go) : forall roots s c s',
  collect_tree fuel slots roots s = Done c s' ->
  exists ord,
    ext (fun x => exists r, In r roots /\ reach r x) c s s' ord [] /\
    (c = Go -> closed s s' /\ forall r, In r roots -> In r (seen s')).
Proof.
  assert (RG : forall ord d c' d', replay ord d = Some (c', d') -> c' = Go).
  { induction ord as [|n ord IH]; simpl; intros d c' d' H; [congruence|].
    specialize (W n d). destruct (walk n d) as [c1 d1]. simpl in W. subst c1. eauto. }
  induction roots as [|r roots IH]; simpl; intros s c s' H.
  - injection H as <- <-. exists []. split; [apply ext_nil|].
    intros _. split; [intros x I; auto | tauto].
  - destruct (keep_walking fuel slots r s) as [c1 s1|] eqn:K; [|discriminate].
    destruct (keep_walking_ok fuel _ _ _ _ K) as [o1 [E1 C1]].
    assert (E1' : ext (fun x => exists r0, (r = r0 \/ In r0 roots) /\ reach r0 x)
                      c1 s s1 o1 []) by (eapply ext_weaken; [|exact E1]; intros x Hx; exists r; auto).
    destruct c1.
    + apply IH in H. destruct H as [o [E C]].
      exists (o1 ++ o). split.
      * eapply ext_app; [exact E1'|].
        eapply ext_weaken; [|exact E]; intros x [y [I A]]; eauto.
      * intros G. destruct (C1 eq_refl) as [K1 K2], (C G) as [K3 K4]. split.
        -- eapply closed_app; eauto.
        -- intros y [<- | I]; auto. apply (ext_seen _ _ _ _ _ _ E). auto.
    + exfalso. destruct (x_run _ _ _ _ _ _ E1) as [c' [R Q]]. simpl in Q. subst c'.
      apply RG in R. discriminate.
    + injection H as <- <-. exists o1. split; [auto | discriminate].
Qed.

Lemma collect_fuel fuel : forall roots s,
  (forall r, In r roots -> In r U) -> todo s <= fuel ->
  collect_tree fuel slots roots s <> Out.
Proof.
  induction roots as [|r roots IH]; simpl; intros s H T; [discriminate|].
  destruct (keep_walking fuel slots r s) as [c1 s1|] eqn:K.
  - destruct (keep_walking_ok fuel _ _ _ _ K) as [o [E _]]. apply ext_mono in E.
    destruct c1; try discriminate; apply IH; auto; lia.
  - exfalso. eapply fuel_enough; [| |exact K]; auto.
Qed.

End Keep.

(** ** Closures *)

Section Kleene.
Variable tval : V -> V -> list V.
Variable slots : list V.
Notation getter := (getter V kindof oval tval).
Notation kleene_get := (kleene_get V veq kindof oval tval).
Notation kleene_slots := (kleene_slots V kindof oval tval).

Definition kedge (x y : V) : Prop :=
  exists s vs, In s slots /\ getter x s = Some vs /\ In y vs.
Definition kreach := clos_refl_trans_1n V kedge.

Record kext (P : V -> Prop) (s s' : list V) : Prop := {
  k_mono : forall x, In x s -> In x s';
  k_reach : forall x, In x s' -> In x s \/ P x;
  k_nodup : NoDup s -> NoDup s' }.
Definition kclosed (s s' : list V) : Prop :=
  forall x, In x s' -> In x s \/ forall y, kedge x y -> In y s'.

Definition krec_ok (rec : list V -> list V -> kres V) : Prop :=
  forall fs s, match rec fs s with
  | KDone _ s' => kext (fun x => exists f, In f fs /\ kreach f x) s s' /\ kclosed s s' /\
                (forall f, In f fs -> In f s')
  | KFail _ => exists f x t, In f fs /\ kreach f x /\ In t slots /\ getter x t = None
  | KOut _ => True
  end.

Lemma kext_trans P s s1 s2 : kext P s s1 -> kext P s1 s2 -> kext P s s2.
Proof.
  intros [a b c] [a' b' c']. constructor; auto.
  intros x I. destruct (b' x I); auto.
Qed.
Lemma kext_weaken (P Q : V -> Prop) s s' : (forall x, P x -> Q x) -> kext P s s' -> kext Q s s'.
Proof. intros H [a b c]. constructor; auto. intros x I. destruct (b x I); auto. Qed.
Lemma kclosed_trans s s1 s2 : kclosed s s1 -> kclosed s1 s2 -> (forall x, In x s1 -> In x s2) -> kclosed s s2.
Proof.
  intros A B M x I. destruct (B x I) as [I1 | Y]; auto. destruct (A x I1) as [I0 | Y]; auto.
Qed.

Lemma kleene_slots_ok rec (R : krec_ok rec) f : forall sl s, incl sl slots ->
  match kleene_slots rec f sl s with
  | KDone _ s' => kext (kreach f) s s' /\ kclosed s s' /\
      (forall t, In t sl -> exists vs, getter f t = Some vs /\ forall y, In y vs -> In y s')
  | KFail _ => exists x t, kreach f x /\ In t slots /\ getter x t = None
  | KOut _ => True
  end.
Proof.
  induction sl as [|t sl IH]; simpl; intros s L.
  - split; [constructor; auto|]. split; [intros x I; auto | tauto].
  - assert (Lt : In t slots) by (apply L; simpl; auto).
    assert (Ll : incl sl slots) by (intros z Hz; apply L; simpl; auto).
    destruct (getter f t) as [vs|] eqn:G.
    2:{ exists f, t. split; [constructor | auto]. }
    specialize (R vs s). destruct (rec vs s) as [s1| |].
    + destruct R as [E1 [C1 F1]].
      assert (E1' : kext (kreach f) s s1).
      { eapply kext_weaken; [|exact E1]. intros x [y [I Ry]]. econstructor 2; eauto.
        exists t, vs. auto. }
      specialize (IH s1 Ll). destruct (kleene_slots rec f sl s1) as [s2| |]; auto.
      destruct IH as [E2 [C2 F2]]. split; [eapply kext_trans; eauto|]. split.
      * eapply kclosed_trans; eauto. apply (k_mono _ _ _ E2).
      * intros t' [<- | I]; auto. exists vs. split; auto. intros y Iy. apply (k_mono _ _ _ E2). auto.
    + destruct R as [y [x [t' [I [Ry [It Gx]]]]]]. exists x, t'. split; auto.
      econstructor 2; eauto. exists t, vs. auto.
    + exact I.
Qed.

Lemma kleene_get_ok : forall fuel, krec_ok (kleene_get fuel slots).
Proof.
  induction fuel as [|k IH]; intros fs s; [exact I|].
  change (kleene_get (S k) slots fs s) with
    ((fix frames_loop (fs seen : list V) : kres V :=
       match fs with
       | [] => KDone V seen
       | f :: r =>
         if mem f seen then frames_loop r seen
         else match kleene_slots (kleene_get k slots) f slots (f :: seen) with
              | KDone _ seen' => frames_loop r seen'
              | x => x
              end
       end) fs s).
  revert s. induction fs as [|f fs IHf]; intros s.
  - split; [constructor; auto|]. split; [intros x Ix; auto | simpl; tauto].
  - destruct (mem f s) eqn:M.
    + specialize (IHf s).
      match goal with |- match ?e with _ => _ end => destruct e as [s1| |] end; auto.
      * destruct IHf as [E [C F]]. split; [|split; auto].
        -- eapply kext_weaken; [|exact E]. intros x [y [Iy A]]. exists y. simpl; auto.
        -- intros y [<- | Iy]; auto. apply (k_mono _ _ _ E). now apply mem_in.
      * destruct IHf as [y [x [t [Iy A]]]]. exists y, x, t. simpl; auto.
    + apply mem_out in M.
      pose proof (kleene_slots_ok _ IH f slots (f :: s) (incl_refl _)) as Sl.
      destruct (kleene_slots (kleene_get k slots) f slots (f :: s)) as [s1| |]; auto.
      * destruct Sl as [E1 [C1 F1]]. specialize (IHf s1).
        assert (E1' : kext (kreach f) s s1).
        { destruct E1 as [a b c]. constructor.
          - intros x Ix. apply a. simpl; auto.
          - intros x Ix. destruct (b x Ix) as [[<- | I0] | H]; auto. right. constructor.
          - intros N0. apply c. constructor; auto. }
        assert (C1' : kclosed s s1).
        { intros x Ix. destruct (C1 x Ix) as [[<- | I0] | H]; auto. right.
          intros y [t [vs [It [G Iy]]]]. destruct (F1 t It) as [vs' [G' Y]].
          rewrite G in G'. injection G' as <-. auto. }
        match goal with |- match ?e with _ => _ end => destruct e as [s2| |] end; auto.
        -- destruct IHf as [E [C F]]. split; [|split].
           ++ eapply kext_trans.
              ** eapply kext_weaken; [|exact E1']. intros x Hx. exists f. simpl; auto.
              ** eapply kext_weaken; [|exact E]. intros x [y [Iy A]]. exists y. simpl; auto.
           ++ eapply kclosed_trans; eauto. apply (k_mono _ _ _ E).
           ++ intros y [<- | Iy]; auto. apply (k_mono _ _ _ E), (k_mono _ _ _ E1). simpl; auto.
        -- destruct IHf as [y [x [t [Iy A]]]]. exists y, x, t. simpl; auto.
      * destruct Sl as [x [t A]]. exists f, x, t. simpl; auto.
Qed.

Variable U : list V.
Hypothesis Uclosed : forall x y, In x U -> kedge x y -> In y U.
Definition ktodo (s : list V) : nat := length (filter (fun v => negb (mem v s)) U).

Lemma ktodo_mono s s' : (forall x, In x s -> In x s') -> ktodo s' <= ktodo s.
Proof.
  intros H. apply filter_length_le. intros x _.
  rewrite !negb_true_iff, !mem_out. auto.
Qed.

Lemma kleene_fuel : forall fuel fs s, (forall f, In f fs -> In f U) -> ktodo s < fuel ->
  kleene_get fuel slots fs s <> KOut V.
Proof.
  induction fuel as [|k IH]; intros fs s H T; [lia|].
  change (kleene_get (S k) slots fs s) with
    ((fix frames_loop (fs seen : list V) : kres V :=
       match fs with
       | [] => KDone V seen
       | f :: r =>
         if mem f seen then frames_loop r seen
         else match kleene_slots (kleene_get k slots) f slots (f :: seen) with
              | KDone _ seen' => frames_loop r seen'
              | x => x
              end
       end) fs s).
  revert s T. induction fs as [|f fs IHf]; intros s T; [discriminate|].
  destruct (mem f s) eqn:M; [apply IHf; auto; intros; apply H; simpl; auto|].
  assert (T1 : ktodo (f :: s) < k).
  { assert (ktodo (f :: s) < ktodo s); [|lia]. apply (filter_length_lt _ _ _ _ f); auto.
    - intros x _. rewrite !negb_true_iff, !mem_out. simpl. tauto.
    - apply H. simpl; auto.
    - apply negb_false_iff, mem_in. simpl. auto.
    - rewrite M. reflexivity. }
  assert (Sl : forall sl s1, incl sl slots -> ktodo s1 < k ->
             kleene_slots (kleene_get k slots) f sl s1 <> KOut V).
  { induction sl as [|t sl IHs]; simpl; intros s1 L T2; [discriminate|].
    destruct (getter f t) as [vs|] eqn:G; [|discriminate].
    pose proof (kleene_get_ok k vs s1) as K.
    destruct (kleene_get k slots vs s1) as [s2| |] eqn:E; try discriminate.
    - apply IHs; [intros z Hz; apply L; simpl; auto|].
      destruct K as [K _]. pose proof (ktodo_mono _ _ (k_mono _ _ _ K)). lia.
    - exfalso. apply (IH vs s1); auto. intros y Iy. apply (Uclosed f y); [apply H; simpl; auto|].
      exists t, vs. split; [apply L; simpl; auto | auto]. }
  specialize (Sl slots (f :: s) (incl_refl _) T1).
  pose proof (kleene_slots_ok _ (kleene_get_ok k) f slots (f :: s) (incl_refl _)) as K.
  destruct (kleene_slots (kleene_get k slots) f slots (f :: s)) as [s1| |]; try discriminate; auto.
  apply IHf; [intros; apply H; simpl; auto|].
  destruct K as [K _]. pose proof (ktodo_mono _ _ (k_mono _ _ _ K)). lia.
Qed.

Lemma ktodo_le s : ktodo s <= length U.
Proof.
  unfold ktodo. clear. induction U as [|x l IH]; simpl; auto.
  destruct (negb _); simpl; lia.
Qed.

Lemma kclosed_reach s' x y : kclosed [] s' -> In x s' -> kreach x y -> In y s'.
Proof.
  intros C I R. induction R; auto. apply IHR. destruct (C x I) as [[] | Y]; auto.
Qed.

End Kleene.
End Proofs.

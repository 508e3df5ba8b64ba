(** * Lemmas about cached slots (FramesModel). *)

From Coq Require Import List Bool Arith Lia.
From Verif Require Import FramesModel.
Import ListNotations.

Section Proofs.

Variable V : Type.
Variable veq : V -> V -> bool.
Hypothesis veq_ok : forall a b, veq a b = true <-> a = b.

Notation feq := (feq V veq).
Notation lookup := (lookup V veq).
Notation imply := (imply V veq).
Notation forget := (forget V veq).
Notation state := (state V).
Notation fact := (fact V).
Notation mem := (mem V veq).
Notation union := (union V veq).
Notation upd := (upd V veq).
Notation dec := (decache_implications V veq).
Notation decache_factoid := (decache_factoid V veq).

Lemma veq_refl a : veq a a = true. Proof. now apply veq_ok. Qed.
Lemma feq_ok (a b : fact) : feq a b = true <-> a = b.
Proof.
  destruct a, b; simpl; split; intros H; try discriminate; try congruence.
  - apply andb_true_iff in H. destruct H as [A B]. apply veq_ok in A, B. congruence.
  - injection H as -> ->. now rewrite !veq_refl.
  - apply andb_true_iff in H. destruct H as [A C]. apply andb_true_iff in A. destruct A as [A B].
    apply veq_ok in A, B, C. congruence.
  - injection H as -> -> ->. now rewrite !veq_refl.
Qed.
Lemma feq_refl (a : fact) : feq a a = true. Proof. now apply feq_ok. Qed.
Lemma feq_neq (a b : fact) : feq a b = false <-> a <> b.
Proof. rewrite <- feq_ok. destruct (feq a b); split; congruence. Qed.
Lemma mem_in : forall x l, mem x l = true <-> In x l.
Proof.
  intros x l. unfold FramesModel.mem. rewrite existsb_exists. split.
  - intros [y [I E]]. apply veq_ok in E. now subst.
  - intros I. exists x. split; [auto | apply veq_refl].
Qed.
Lemma memf_in : forall x l, memf V veq x l = true <-> In x l.
Proof.
  intros x l. unfold memf. rewrite existsb_exists. split.
  - intros [y [I E]]. apply feq_ok in E. now subst.
  - intros I. exists x. split; [auto | apply feq_refl].
Qed.
Lemma upd_eq {A : Type} (m : V -> V -> A) f s x : upd m f s x f s = x.
Proof. unfold FramesModel.upd. now rewrite !veq_refl. Qed.
Lemma upd_neq {A : Type} (m : V -> V -> A) f s x g t : (f, s) <> (g, t) -> upd m f s x g t = m g t.
Proof.
  intros H. unfold FramesModel.upd. destruct (veq f g) eqn:E; simpl; auto.
  destruct (veq s t) eqn:E2; auto. apply veq_ok in E, E2. congruence.
Qed.
Lemma pair_dec (f s g t : V) : {(f, s) = (g, t)} + {(f, s) <> (g, t)}.
Proof.
  destruct (veq f g) eqn:E.
  - destruct (veq s t) eqn:E2.
    + left. apply veq_ok in E, E2. congruence.
    + right. intros [= _ H]. apply veq_ok in H. congruence.
  - right. intros [= H _]. apply veq_ok in H. congruence.
Qed.

(** ** Implications *)

Lemma lookup_imply l d a k b : In b (lookup l k) -> In b (lookup (imply l d a) k).
Proof.
  induction l as [|[c x] l IH]; simpl; [tauto|].
  destruct (feq k c) eqn:E.
  - intros I. destruct (feq d c); simpl; rewrite E; auto.
    destruct (memf V veq a x); auto. rewrite in_app_iff. auto.
  - intros I. destruct (feq d c); simpl; rewrite E; auto.
Qed.
Lemma lookup_imply_new l d a : In a (lookup (imply l d a) d).
Proof.
  induction l as [|[c x] l IH]; simpl.
  - rewrite feq_refl. simpl; auto.
  - destruct (feq d c) eqn:E; simpl; rewrite E; auto.
    destruct (memf V veq a x) eqn:M; [now apply memf_in|]. rewrite in_app_iff. simpl; auto.
Qed.
Lemma lookup_record deps a : forall l k b, In b (lookup l k) ->
  In b (lookup (fold_left (fun l d => imply l d a) deps l) k).
Proof.
  induction deps as [|d deps IH]; simpl; auto. intros l k b I. apply IH. now apply lookup_imply.
Qed.
Lemma lookup_record_new a : forall deps l d, In d deps ->
  In a (lookup (fold_left (fun l d => imply l d a) deps l) d).
Proof.
  induction deps as [|e deps IH]; simpl; [tauto|]. intros l d [<- | I]; auto.
  apply lookup_record. apply lookup_imply_new.
Qed.
Lemma lookup_forget l a k : lookup (forget l a) k = if feq a k then [] else lookup l k.
Proof.
  induction l as [|[c x] l IH]; simpl; [now destruct (feq a k)|].
  destruct (feq a c) eqn:E; simpl.
  - rewrite IH. destruct (feq a k) eqn:E2; auto. destruct (feq k c) eqn:E3; auto.
    exfalso. apply feq_ok in E, E3. subst. rewrite feq_refl in E2. discriminate.
  - rewrite IH. destruct (feq k c) eqn:E3; auto. destruct (feq a k) eqn:E2; auto.
    exfalso. apply feq_ok in E3, E2. subst. rewrite feq_refl in E. discriminate.
Qed.
Lemma forget_le l a : length (forget l a) <= length l.
Proof.
  induction l as [|[c x] l IH]; simpl; auto. destruct (feq a c); simpl; lia.
Qed.
Lemma forget_lt l a : lookup l a <> [] -> length (forget l a) < length l.
Proof.
  induction l as [|[c x] l IH]; simpl; [congruence|].
  destruct (feq a c) eqn:E; simpl.
  - intros _. pose proof (forget_le l a). lia.
  - intros H. apply IH in H. lia.
Qed.

(** ** Decaching *)

Definition cleared (st : state) (a : fact) : Prop :=
  match a with
  | FGet f s => scache st f s = None /\ tcache st f s = ([], [])
  | FTest _ _ _ => True
  end.

(** From one factoid to another through the implications. *)
Inductive chain (l : list (fact * list fact)) : fact -> fact -> Prop :=
| ch_refl a : chain l a a
| ch_step a b c : In b (lookup l a) -> chain l b c -> chain l a c.

Record shrunk (s s' : state) : Prop := {
  s_store : store s' = store s;
  s_lookup : forall k, lookup (impl s') k = lookup (impl s) k \/ lookup (impl s') k = [];
  s_len : length (impl s') <= length (impl s);
  s_mono : forall b, cleared s b -> cleared s' b;
  s_same : forall f t, (scache s' f t = scache s f t /\ tcache s' f t = tcache s f t) \/ cleared s' (FGet f t);
  s_closed : forall k b, In b (lookup (impl s) k) -> lookup (impl s') k = [] ->
             cleared s' b /\ lookup (impl s') b = [] }.

Lemma shrunk_refl s : shrunk s s.
Proof.
  constructor; auto. intros k b I E. rewrite E in I. destruct I.
Qed.
Lemma nil_lookup s s' k : shrunk s s' -> lookup (impl s) k = [] -> lookup (impl s') k = [].
Proof. intros [_ L _ _ _ _] E. destruct (L k); congruence. Qed.
Lemma shrunk_trans s s1 s2 : shrunk s s1 -> shrunk s1 s2 -> shrunk s s2.
Proof.
  intros [a1 a2 a3 a4 a6 a5] [b1 b2 b3 b4 b6 b5]. constructor.
  - congruence.
  - intros k. destruct (b2 k) as [E | E]; auto. destruct (a2 k); [left|right]; congruence.
  - lia.
  - auto.
  - intros f t. destruct (b6 f t) as [[E1 E2] | C]; auto.
    destruct (a6 f t) as [[E3 E4] | C]; [left; split; congruence | right; apply b4, C].
  - intros k b I E. destruct (a2 k) as [E1 | E1].
    + apply (b5 k b); auto. rewrite E1. exact I.
    + destruct (a5 k b I E1) as [C N0]. split; auto. destruct (b2 b); congruence.
Qed.

Lemma cleared_factoid a st b : cleared st b -> cleared (decache_factoid a st) b.
Proof.
  destruct a as [f s|]; simpl; auto. destruct b as [g t|]; simpl; auto. intros [A B].
  destruct (pair_dec f s g t) as [[= <- <-] | N0]; [now rewrite !upd_eq | now rewrite !upd_neq].
Qed.
Lemma cleared_self a st : cleared (decache_factoid a st) a.
Proof. destruct a; simpl; auto. now rewrite !upd_eq. Qed.
Lemma same_factoid a st f t :
  (scache (decache_factoid a st) f t = scache st f t /\ tcache (decache_factoid a st) f t = tcache st f t) \/
  cleared (decache_factoid a st) (FGet f t).
Proof.
  destruct a as [g u|]; simpl; auto.
  destruct (pair_dec g u f t) as [[= <- <-] | N0]; [rewrite !upd_eq | rewrite !upd_neq]; auto.
Qed.
Lemma factoid_impl a st : impl (decache_factoid a st) = impl st.
Proof. destruct a; reflexivity. Qed.
Lemma factoid_store a st : store (decache_factoid a st) = store st.
Proof. destruct a; reflexivity. Qed.

(** Entries that aren't implied are kept. *)
Definition kept (l : list (fact * list fact)) (a : fact) (s s' : state) : Prop :=
  (forall f t, ~ chain l a (FGet f t) -> scache s' f t = scache s f t /\ tcache s' f t = tcache s f t) /\
  (forall b, ~ chain l a b -> lookup (impl s') b = lookup (impl s) b).

Lemma chain_sub l l' a b : (forall k, lookup l' k = lookup l k \/ lookup l' k = []) ->
  chain l' a b -> chain l a b.
Proof.
  intros H C. induction C as [|a b c I C IH]; [constructor|]. econstructor 2; [|exact IH].
  destruct (H a) as [E | E]; rewrite E in I; [exact I | destruct I].
Qed.

Lemma dec_ok : forall fuel a st, length (impl st) < fuel ->
  shrunk st (dec fuel a st) /\ cleared (dec fuel a st) a /\ lookup (impl (dec fuel a st)) a = [] /\
  kept (impl st) a st (dec fuel a st).
Proof.
  induction fuel as [|k IH]; intros a st L; [lia|].
  simpl. rewrite factoid_impl, factoid_store.
  destruct (lookup (impl st) a) as [|b0 bs] eqn:Ea.
  - simpl. split; [|split; [|split]].
    + constructor; rewrite ?factoid_store, ?factoid_impl; auto.
      * intros b. apply cleared_factoid.
      * intros f t. apply same_factoid.
      * intros k0 b I E. rewrite E in I. destruct I.
    + apply cleared_self.
    + now rewrite factoid_impl.
    + split; [|now rewrite factoid_impl].
      intros f t NC. destruct a as [g u|]; simpl; auto.
      rewrite !upd_neq; auto; intros [= -> ->]; apply NC; constructor.
  - set (bl := b0 :: bs) in *.
    set (st2 := St (store st) (scache (decache_factoid a st)) (tcache (decache_factoid a st)) (forget (impl st) a)).
    assert (L2 : length (impl st2) < k).
    { simpl. assert (length (forget (impl st) a) < length (impl st)) by (apply forget_lt; rewrite Ea; discriminate). lia. }
    assert (CS : forall b, cleared st b -> cleared st2 b).
    { intros b C. pose proof (cleared_factoid a st b C). destruct b; auto. }
    assert (CA : cleared st2 a) by (pose proof (cleared_self a st); destruct a; auto).
    assert (FL : forall bs0 s0, length (impl s0) < k ->
       let s1 := fold_left (fun s b => dec k b s) bs0 s0 in
       shrunk s0 s1 /\ (forall b, In b bs0 -> cleared s1 b /\ lookup (impl s1) b = []) /\
       (forall f t, (forall b, In b bs0 -> ~ chain (impl s0) b (FGet f t)) ->
          scache s1 f t = scache s0 f t /\ tcache s1 f t = tcache s0 f t) /\
       (forall c, (forall b, In b bs0 -> ~ chain (impl s0) b c) -> lookup (impl s1) c = lookup (impl s0) c)).
    { induction bs0 as [|b bs0 IHb]; intros s0 L0; simpl.
      - split; [apply shrunk_refl|]. split; [tauto|]. split; auto.
      - destruct (IH b s0 L0) as [S1 [C1 [N1 [K1 M1]]]].
        assert (L1 : length (impl (dec k b s0)) < k) by (pose proof (s_len _ _ S1); lia).
        destruct (IHb (dec k b s0) L1) as [S2 [C2 [K2 M2]]]. split; [eapply shrunk_trans; eauto|].
        split; [|split].
        + intros c [<- | I]; auto. split; [apply (s_mono _ _ S2); auto | apply (nil_lookup _ _ _ S2); auto].
        + intros f t NC. destruct (K1 f t) as [E1 E2]; [apply NC; auto|].
          destruct (K2 f t) as [E3 E4]; [|split; congruence].
          intros c I Ch. apply (NC c (or_intror I)).
          eapply chain_sub; [|exact Ch]. apply (s_lookup _ _ S1).
        + intros c NC. rewrite M2; [apply M1; auto|]. intros e I Ch. apply (NC e (or_intror I)).
          eapply chain_sub; [|exact Ch]. apply (s_lookup _ _ S1). }
    destruct (FL bl st2 L2) as [S2 [C2 [K2 M2]]].
    set (st3 := fold_left (fun s b => dec k b s) bl st2) in *.
    assert (LA : lookup (impl st2) a = []) by (simpl; rewrite lookup_forget, feq_refl; reflexivity).
    assert (SUB : forall k0, lookup (impl st2) k0 = lookup (impl st) k0 \/ lookup (impl st2) k0 = []).
    { intros k0. simpl. rewrite lookup_forget. destruct (feq a k0); auto. }
    assert (LA3 : lookup (impl st3) a = []) by (apply (nil_lookup _ _ _ S2); auto).
    split; [|split; [|split]]; auto.
    + constructor.
      * rewrite (s_store _ _ S2). reflexivity.
      * intros k0. destruct (s_lookup _ _ S2 k0) as [E | E]; auto. rewrite E. apply SUB.
      * pose proof (s_len _ _ S2). simpl in H. pose proof (forget_le (impl st) a). lia.
      * intros b C. apply (s_mono _ _ S2). auto.
      * intros f t. destruct (s_same _ _ S2 f t) as [[E1 E2] | C]; [|auto].
        rewrite E1, E2. destruct (same_factoid a st f t) as [Q | Q]; [left; exact Q|].
        right. apply (s_mono _ _ S2). exact Q.
      * intros k0 b I E. destruct (feq a k0) eqn:Ek.
        -- apply feq_ok in Ek. subst k0. rewrite Ea in I. apply C2. exact I.
        -- apply (s_closed _ _ S2 k0 b); auto. simpl. rewrite lookup_forget, Ek. exact I.
    + apply (s_mono _ _ S2). exact CA.
    + split. 2: {
        intros c NC. rewrite M2.
        - simpl. rewrite lookup_forget. destruct (feq a c) eqn:E; auto.
          apply feq_ok in E. subst c. exfalso. apply NC. constructor.
        - intros b I Ch. apply NC. econstructor 2; [rewrite Ea; exact I|].
          eapply chain_sub; [|exact Ch]. exact SUB. }
      intros f t NC. destruct (K2 f t) as [E1 E2].
      * intros b I Ch. apply NC. econstructor 2; [rewrite Ea; exact I|].
        eapply chain_sub; [|exact Ch]. exact SUB.
      * rewrite E1, E2. simpl. destruct a as [g u|]; simpl; auto.
        rewrite !upd_neq; auto; intros [= -> ->]; apply NC; constructor.
Qed.

Lemma dec_chain fuel a st b : length (impl st) < fuel -> chain (impl st) a b ->
  cleared (dec fuel a st) b /\ lookup (impl (dec fuel a st)) b = [].
Proof.
  intros L C. destruct (dec_ok fuel a st L) as [S1 [C1 [N1 _]]].
  set (st' := dec fuel a st) in *.
  clearbody st'. induction C as [|a b c I C IH]; auto.
  destruct (s_closed _ _ S1 a b I N1) as [C2 N2]. apply IH; auto.
Qed.

Lemma shrunk_decache f s st : shrunk st (decache V veq f s st).
Proof. unfold decache. apply dec_ok. lia. Qed.
Lemma decache_chain f s st b : chain (impl st) (FGet f s) b ->
  cleared (decache V veq f s st) b /\ lookup (impl (decache V veq f s st)) b = [].
Proof. unfold decache. apply dec_chain. lia. Qed.

(** ** Methods that look only at slots that are symbols, through kno_frame_get *)

Variable oidslot : V -> bool.
Notation prog := (prog V).
Inductive flat : prog -> Prop :=
| fl_ret vs : flat (Ret vs)
| fl_get f s k : oidslot s = false -> (forall vs, flat (k vs)) -> flat (PGet f s k).

(** What such a method gives, and what it looks at. *)
Fixpoint res (sto : V -> V -> list V) (p : prog) : list V :=
  match p with
  | Ret vs => vs
  | PGet f s k => res sto (k (sto f s))
  | PTest f s v k => res sto (k (mem v (sto f s)))
  end.
Fixpoint rds (sto : V -> V -> list V) (p : prog) : list fact :=
  match p with
  | Ret _ => []
  | PGet f s k => FGet f s :: rds sto (k (sto f s))
  | PTest f s v k => FTest f s v :: rds sto (k (mem v (sto f s)))
  end.

Lemma rds_sym sto p d : flat p -> In d (rds sto p) -> exists g t, d = FGet g t /\ oidslot t = false.
Proof.
  induction 1 as [|f s k H F IH]; simpl; [tauto|]. intros [<- | I]; eauto.
Qed.
Lemma res_upd sto f s x p : flat p -> ~ In (FGet f s) (rds sto p) ->
  res (upd sto f s x) p = res sto p /\ rds (upd sto f s x) p = rds sto p.
Proof.
  induction 1 as [|g t k H F IH]; simpl; auto. intros NI.
  rewrite upd_neq by (intros [= -> ->]; tauto).
  destruct (IH (sto g t)) as [A B]; [tauto|]. split; congruence.
Qed.

Variable get : list fact -> V -> V -> state -> out V (list V).
Variable test : list fact -> V -> V -> V -> state -> out V bool.
Hypothesis get_sym : forall ops f s st, oidslot s = false ->
  get ops f s st = Some (store st f s, [FGet f s], st).

Lemma run_flat ops p st : flat p -> run V get test ops p st = Some (res (store st) p, rds (store st) p, st).
Proof.
  induction 1 as [|g t k H F IH]; simpl; auto. rewrite get_sym by auto. now rewrite IH.
Qed.
Lemma run_get_flat ops f st : forall ms acc, (forall m, In m ms -> flat (m f)) ->
  run_get V veq get test ops ms f acc st =
  Some (fold_left (fun a m => union a (res (store st) (m f))) ms acc,
        flat_map (fun m => rds (store st) (m f)) ms, st).
Proof.
  induction ms as [|m ms IH]; simpl; intros acc F; auto.
  rewrite run_flat by auto. rewrite IH by auto. reflexivity.
Qed.
End Proofs.

Section Fresh.

Variable V : Type.
Variable veq : V -> V -> bool.
Hypothesis veq_ok : forall a b, veq a b = true <-> a = b.
Variable oidslot : V -> bool.
Variable gm cm : V -> option (list (V -> prog V)).
Variable tm : V -> option (list (V -> V -> prog V)).
Variable truev : V.
Hypothesis gm_flat : forall s l m f, gm s = Some l -> In m l -> flat V oidslot (m f).
Hypothesis cm_flat : forall s l m f, cm s = Some l -> In m l -> flat V oidslot (m f).
Hypothesis tm_none : forall s, oidslot s = true -> tm s = Some [] \/ (tm s = None /\ gm s = None).

Notation lookup := (lookup V veq).
Notation state := (state V).
Notation mem := (mem V veq).
Notation union := (union V veq).
Notation upd := (upd V veq).
Notation res := (res V veq).
Notation rds := (rds V veq).
Notation frame_get := (frame_get V veq oidslot gm cm tm truev).
Notation frame_test := (frame_test V veq oidslot gm cm tm truev).
Notation decache := (decache V veq).

(** The methods a get runs, what they give together and what they look at. *)
Definition used (sto : V -> V -> list V) (f s : V) : list (V -> prog V) :=
  match gm s with
  | None => []
  | Some [] => match sto f s with [] => match cm s with Some l => l | None => [] end | _ => [] end
  | Some l => l
  end.
Definition computed (sto : V -> V -> list V) (f s : V) : list V :=
  fold_left (fun a m => union a (res sto (m f))) (used sto f s) [].
Definition val (sto : V -> V -> list V) (f s : V) : list V :=
  match gm s with
  | Some [] => match sto f s with [] => computed sto f s | vs => vs end
  | _ => computed sto f s
  end.
Definition deps (sto : V -> V -> list V) (f s : V) : list (fact V) :=
  flat_map (fun m => rds sto (m f)) (used sto f s).

Lemma used_flat sto f s m : In m (used sto f s) -> flat V oidslot (m f).
Proof.
  unfold used. destruct (gm s) as [[|m0 l]|] eqn:E; [|intros I; eapply gm_flat; eauto|intros []].
  destruct (sto f s); [|intros []]. destruct (cm s) eqn:E2; [|intros []]. intros I. eapply cm_flat; eauto.
Qed.

Definition depsok (st : state) (f s : V) : Prop :=
  forall d, In d (deps (store st) f s) -> In (FGet f s) (lookup (impl st) d).

Record inv (st : state) : Prop := {
  i_cache : forall f s vs, scache st f s = Some vs ->
    oidslot s = true /\ vs = val (store st) f s /\ depsok st f s;
  i_in : forall f s v, In v (fst (tcache st f s)) ->
    oidslot s = true /\ In v (val (store st) f s) /\ depsok st f s;
  i_out : forall f s v, In v (snd (tcache st f s)) ->
    oidslot s = true /\ ~ In v (val (store st) f s) /\ depsok st f s }.

Lemma compute_ok k f s st : inv st -> oidslot s = true -> scache st f s = None -> forall l,
  used (store st) f s = l -> val (store st) f s = computed (store st) f s ->
  exists st',
   match run_get V veq (frame_get (S k)) (frame_test (S k)) [FGet f s] l f [] st with
   | None => None
   | Some (vs, d, st1) =>
     let st2 := record V veq d (FGet f s) st1 in
     Some (vs, [FGet f s], St (store st2) (upd (scache st2) f s (Some vs)) (tcache st2) (impl st2))
   end = Some (val (store st) f s, [FGet f s], st') /\
   inv st' /\ store st' = store st /\ tcache st' = tcache st /\ depsok st' f s.
Proof.
  intros I O N0 l U E.
  rewrite (run_get_flat V veq oidslot).
  2: { intros ops g t st0 H. cbn [FramesModel.frame_get]. now rewrite H. }
  2: { intros m H. apply (used_flat (store st) f s). now rewrite U. }
  cbv zeta. eexists. split; [rewrite E; unfold computed; rewrite U; reflexivity|].
  simpl.
  set (deps0 := flat_map (fun m => rds (store st) (m f)) l).
  assert (M : forall k0 b, In b (lookup (impl st) k0) ->
     In b (lookup (fold_left (fun l d => imply V veq l d (FGet f s)) deps0 (impl st)) k0)).
  { intros k0 b. apply lookup_record. }
  assert (D : depsok (St (store st) (upd (scache st) f s (Some (fold_left (fun a m => union a (res (store st) (m f))) l [])))
        (tcache st) (fold_left (fun l d => imply V veq l d (FGet f s)) deps0 (impl st))) f s).
  { intros d Hd. simpl in *. apply lookup_record_new; auto. unfold deps in Hd. rewrite U in Hd. exact Hd. }
  split; [|auto].
  destruct I as [i1 i2 i3].
  assert (X : forall g t, depsok st g t -> depsok (St (store st) (upd (scache st) f s (Some (fold_left (fun a m => union a (res (store st) (m f))) l [])))
        (tcache st) (fold_left (fun l d => imply V veq l d (FGet f s)) deps0 (impl st))) g t).
  { intros g t H d Hd. simpl in *. apply M. now apply H. }
  constructor; simpl.
  - intros g t vs H. destruct (pair_dec V veq veq_ok f s g t) as [[= <- <-] | NE].
    + rewrite upd_eq in H by auto. injection H as <-. split; [auto|]. split; [|exact D].
      rewrite E. unfold computed. now rewrite U.
    + rewrite upd_neq in H by auto. destruct (i1 _ _ _ H) as [A [B C]]. auto.
  - intros g t v H. destruct (i2 _ _ _ H) as [A [B C]]. auto.
  - intros g t v H. destruct (i3 _ _ _ H) as [A [B C]]. auto.
Qed.

Lemma get_ok k f s st : inv st -> oidslot s = true -> exists d st',
  frame_get (S (S k)) [] f s st = Some (val (store st) f s, d, st') /\
  inv st' /\ store st' = store st /\ tcache st' = tcache st /\ depsok st' f s.
Proof.
  intros I O. remember (S k) as k1. cbn [FramesModel.frame_get]. rewrite O. change (memf V veq (FGet f s) []) with false. cbv iota.
  destruct (scache st f s) as [vs|] eqn:Ec.
  - destruct (i_cache _ I _ _ _ Ec) as [A [B C]]. exists [], st. subst vs. auto.
  - destruct (gm s) as [[|m l]|] eqn:Eg.
    + destruct (store st f s) as [|v vs] eqn:Es.
      * destruct (cm s) as [l|] eqn:Em.
        -- subst k1. destruct (compute_ok k f s st I O Ec l) as [st' H].
           ++ unfold used. now rewrite Eg, Es, Em.
           ++ unfold val. now rewrite Eg, Es.
           ++ exists [FGet f s], st'. exact H.
        -- exists [FGet f s], st. unfold val, computed, depsok, deps, used. rewrite Eg, Es, Em. simpl. tauto.
      * exists [FGet f s], st. unfold val, computed, depsok, deps, used. rewrite Eg, Es. simpl. tauto.
    + subst k1. destruct (compute_ok k f s st I O Ec (m :: l)) as [st' H].
      * unfold used. now rewrite Eg.
      * unfold val. now rewrite Eg.
      * exists [FGet f s], st'. exact H.
    + exists [FGet f s], st. unfold val, computed, depsok, deps, used. rewrite Eg. simpl. tauto.
Qed.

Lemma test_eq k ops f s v st : oidslot s = true -> memf V veq (FTest f s v) ops = false ->
  tm s = Some [] -> mem v (fst (tcache st f s)) = false -> mem v (snd (tcache st f s)) = false ->
  frame_test (S k) ops f s v st =
  match frame_get k ops f s st with
  | None => None
  | Some (vs, d, st1) =>
    let (i, o) := tcache st1 f s in
    let e := if mem v vs then (i ++ [v], o) else (i, o ++ [v]) in
    Some (mem v vs, d, St (store st1) (scache st1) (upd (tcache st1) f s e) (impl st1))
  end.
Proof.
  intros O M T A B. cbn [FramesModel.frame_test]. rewrite O, M. destruct (tcache st f s) as [i o]. simpl in A, B. rewrite A, B, T. reflexivity.
Qed.

Lemma test_ok k f s v st : inv st -> oidslot s = true -> exists b d st',
  frame_test (S (S (S k))) [] f s v st = Some (b, d, st') /\
  inv st' /\ store st' = store st /\ (b = true <-> In v (val (store st) f s)).
Proof.
  intros I O. destruct (tcache st f s) as [inn outt] eqn:Et.
  destruct (mem v inn) eqn:E1.
  { exists true, [], st. split.
    - cbn [FramesModel.frame_test]. rewrite O, Et, E1. reflexivity.
    - apply mem_in in E1; auto. split; [auto|]. split; [auto|]. split; [intros _ | auto].
      apply (i_in _ I f s v). now rewrite Et. }
  destruct (mem v outt) eqn:E2.
  { exists false, [], st. split.
    - cbn [FramesModel.frame_test]. rewrite O, Et, E1, E2. reflexivity.
    - apply mem_in in E2; auto. split; [auto|]. split; [auto|].
      split; [discriminate|]. intros H. exfalso. revert H. apply (i_out _ I f s v). now rewrite Et. }
  destruct (tm_none s O) as [T | [T G]].
  - rewrite test_eq by (rewrite ?Et; auto).
    destruct (get_ok k f s st I O) as [d [st' [E [I' [S' [T' D']]]]]].
    rewrite E. rewrite T', Et. cbv zeta.
    eexists _, _, _. split; [reflexivity|]. simpl. split; [|split; [auto | apply mem_in; auto]].
    destruct I' as [i1 i2 i3]. constructor; simpl.
    + exact i1.
    + intros g t x H. destruct (pair_dec V veq veq_ok f s g t) as [[= <- <-] | NE].
      * rewrite upd_eq in H by auto. split; [auto|]. split; [|exact D'].
        destruct (mem v (val (store st) f s)) eqn:Em; simpl in H.
        -- apply in_app_or in H. destruct H as [H | [<- | []]].
           ++ apply (i2 f s x). rewrite T', Et. exact H.
           ++ rewrite S'. now apply mem_in in Em.
        -- apply (i2 f s x). rewrite T', Et. exact H.
      * rewrite upd_neq in H by auto. rewrite <- T' in H. exact (i2 g t x H).
    + intros g t x H. destruct (pair_dec V veq veq_ok f s g t) as [[= <- <-] | NE].
      * rewrite upd_eq in H by auto. split; [auto|]. split; [|exact D'].
        destruct (mem v (val (store st) f s)) eqn:Em; simpl in H.
        -- apply (i3 f s x). rewrite T', Et. exact H.
        -- apply in_app_or in H. destruct H as [H | [<- | []]].
           ++ apply (i3 f s x). rewrite T', Et. exact H.
           ++ rewrite S'. intros Q. apply (mem_in V veq veq_ok) in Q. congruence.
      * rewrite upd_neq in H by auto. rewrite <- T' in H. exact (i3 g t x H).
  - exists false, [], st. split; [cbn [FramesModel.frame_test]; rewrite O, Et, E1, E2, T; reflexivity|].
    split; [auto|]. split; [auto|]. split; [discriminate|].
    unfold val, computed, used. rewrite G. simpl. tauto.
Qed.

(** ** Changes *)

Lemma val_upd sto g t x f s : (g, t) <> (f, s) -> ~ In (FGet g t) (deps sto f s) ->
  val (upd sto g t x) f s = val sto f s /\ deps (upd sto g t x) f s = deps sto f s.
Proof.
  intros NE NI.
  assert (U : used (upd sto g t x) f s = used sto f s) by (unfold used; now rewrite upd_neq).
  assert (A : forall l, (forall m, In m l -> flat V oidslot (m f)) ->
     ~ In (FGet g t) (flat_map (fun m => rds sto (m f)) l) -> forall acc,
     fold_left (fun a m => union a (res (upd sto g t x) (m f))) l acc =
     fold_left (fun a m => union a (res sto (m f))) l acc /\
     flat_map (fun m => rds (upd sto g t x) (m f)) l = flat_map (fun m => rds sto (m f)) l).
  { induction l as [|m l IH]; simpl; auto. intros F NI0 acc. rewrite in_app_iff in NI0.
    destruct (res_upd V veq veq_ok oidslot sto g t x (m f)) as [B C]; [auto | tauto |].
    rewrite B, C. destruct (IH) with (acc := union acc (res sto (m f))) as [D E]; [auto | tauto |].
    rewrite D, E. auto. }
  destruct (A (used sto f s) (fun m H => used_flat sto f s m H) NI []) as [B C].
  unfold val, computed, deps. rewrite U, B, C, upd_neq by auto. auto.
Qed.

Lemma change_inv g t x st : inv st ->
  inv (St (upd (store (decache g t st)) g t x) (scache (decache g t st)) (tcache (decache g t st))
          (impl (decache g t st))).
Proof.
  intros I. set (st1 := decache g t st).
  pose proof (shrunk_decache V veq veq_ok g t st) as SH. fold st1 in SH.
  assert (CH : forall b, chain V veq (impl st) (FGet g t) b -> cleared V st1 b)
    by (intros b; apply decache_chain; auto).
  assert (SO : store st1 = store st) by apply (s_store _ _ _ _ SH).
  (* an entry that is left *)
  assert (K : forall f s, ~ cleared V st1 (FGet f s) -> depsok st f s ->
     val (upd (store st1) g t x) f s = val (store st) f s /\
     depsok (St (upd (store st1) g t x) (scache st1) (tcache st1) (impl st1)) f s).
  { intros f s NC D.
    assert (NE : (g, t) <> (f, s)) by (intros [= -> ->]; apply NC, CH; constructor).
    assert (NI : ~ In (FGet g t) (deps (store st) f s)).
    { intros H. apply NC, CH. econstructor 2; [apply D, H | constructor]. }
    rewrite SO. destruct (val_upd (store st) g t x f s NE NI) as [A B]. split; [exact A|].
    intros d Hd. simpl in *. rewrite B in Hd.
    destruct (s_lookup _ _ _ _ SH d) as [E | E].
    - rewrite E. apply D; auto.
    - exfalso. apply NC. apply (s_closed _ _ _ _ SH d _ (D d Hd) E). }
  destruct I as [i1 i2 i3]. constructor; simpl.
  - intros f s vs H. destruct (s_same _ _ _ _ SH f s) as [[E1 E2] | [C _]]; [|congruence].
    rewrite E1 in H. destruct (i1 _ _ _ H) as [A [B C]].
    destruct (K f s) as [X Y]; [intros [Q _]; congruence | auto |]. rewrite X. auto.
  - intros f s v H. destruct (s_same _ _ _ _ SH f s) as [[E1 E2] | [_ C]]; [|rewrite C in H; destruct H].
    assert (NC : ~ cleared V st1 (FGet f s)) by (intros [_ Q]; rewrite Q in H; destruct H).
    rewrite E2 in H. destruct (i2 _ _ _ H) as [A [B C]].
    destruct (K f s) as [X Y]; auto. rewrite X. auto.
  - intros f s v H. destruct (s_same _ _ _ _ SH f s) as [[E1 E2] | [_ C]]; [|rewrite C in H; destruct H].
    assert (NC : ~ cleared V st1 (FGet f s)) by (intros [_ Q]; rewrite Q in H; destruct H).
    rewrite E2 in H. destruct (i3 _ _ _ H) as [A [B C]].
    destruct (K f s) as [X Y]; auto. rewrite X. auto.
Qed.

(** ** Histories *)

Notation exec := (exec V veq oidslot gm cm tm truev).
Notation exec_all := (exec_all V veq oidslot gm cm tm truev).

(** What is stored after a command. *)
Definition stored (c : cmd V) (sto : V -> V -> list V) : V -> V -> list V :=
  match c with
  | CAdd f s v => upd sto f s (union (sto f s) [v])
  | CDrop f s v => upd sto f s (filter (fun x => negb (veq x v)) (sto f s))
  | _ => sto
  end.

Lemma exec_ok k c st : inv st -> exists st',
  exec (S (S (S k))) c st = Some st' /\ inv st' /\ store st' = stored c (store st).
Proof.
  intros I. destruct c as [f s|f s v|f s v|f s v| |s]; cbn [FramesModel.exec stored].
  - destruct (oidslot s) eqn:O.
    + destruct (get_ok (S k) f s st I O) as [d [st' [E [I' [S' _]]]]]. rewrite E. eauto.
    + cbn [FramesModel.frame_get]. rewrite O. eauto.
  - destruct (oidslot s) eqn:O.
    + destruct (test_ok k f s v st I O) as [b [d [st' [E [I' [S' _]]]]]]. rewrite E. eauto.
    + cbn [FramesModel.frame_test]. rewrite O. eauto.
  - eexists. split; [reflexivity|]. unfold frame_add. split; [now apply change_inv|]. simpl.
    now rewrite (s_store _ _ _ _ (shrunk_decache V veq veq_ok f s st)).
  - eexists. split; [reflexivity|]. unfold frame_drop. split; [now apply change_inv|]. simpl.
    now rewrite (s_store _ _ _ _ (shrunk_decache V veq veq_ok f s st)).
  - eexists. split; [reflexivity|]. split; [|reflexivity].
    constructor; simpl; intros; [discriminate | tauto | tauto].
  - eexists. split; [reflexivity|]. split; [|reflexivity]. destruct I as [i1 i2 i3].
    constructor; simpl; intros f t x; destruct (veq s t); try discriminate; try (solve [intros []]);
      [exact (i1 f t x) | exact (i2 f t x) | exact (i3 f t x)].
Qed.

Lemma exec_all_ok k : forall cs st, inv st -> exists st',
  exec_all (S (S (S k))) cs st = Some st' /\ inv st' /\
  store st' = fold_left (fun sto c => stored c sto) cs (store st).
Proof.
  induction cs as [|c cs IH]; intros st I; [exists st; simpl; auto|].
  destruct (exec_ok k c st I) as [st1 [E [I1 S1]]].
  destruct (IH st1 I1) as [st2 [E2 [I2 S2]]].
  exists st2. cbn [FramesModel.exec_all]. rewrite E. split; [exact E2|]. split; [exact I2|].
  rewrite S2, S1. reflexivity.
Qed.

Lemma inv_start sto : inv (St sto (fun _ _ => None) (fun _ _ => ([], [])) []).
Proof. constructor; simpl; intros; [discriminate | tauto | tauto]. Qed.

Lemma in_union x a b : In x (union a b) <-> In x a \/ In x b.
Proof.
  unfold FramesModel.union. rewrite in_app_iff, filter_In. split; [tauto|].
  intros [H | H]; auto. destruct (mem x a) eqn:E; [left; now apply (mem_in V veq veq_ok) | right].
  auto.
Qed.
Lemma in_fold sto f x : forall l acc,
  In x (fold_left (fun a (m : V -> prog V) => union a (res sto (m f))) l acc) <->
  In x acc \/ exists m, In m l /\ In x (res sto (m f)).
Proof.
  induction l as [|m l IH]; simpl; intros acc.
  - split; [auto|]. intros [H | [m [[] _]]]; auto.
  - rewrite IH, in_union. split.
    + intros [[H | H] | [m0 [H1 H2]]]; eauto.
    + intros [H | [m0 [[<- | H1] H2]]]; eauto.
Qed.
End Fresh.

(** * C20 and C54: operations that compute the new value of a key from the old one. *)
From Coq Require Import QArith Qminmax Lia Permutation Sorting.Sorted List.
From Verif Require Import ValueModel ValueProofs SortModel SortProofs ChoicesModel SlotmapModel
  ChoicesProofs ChoicesProofs2 ChoicesProofs3 ChoicesProps TableProofs SlotmapProofs SlotmapProps
  HashtableModel HashtableProofs HashtableProps HashopModel HashopProofs.
Import ListNotations.
Local Open Scope nat_scope.

(** ** Specification, on the abstract map of TableProofs.  [P] is the set of values of
    the operand, [r] the return code. *)
Definition keep (c : Z) (m : amap) (r : Z) (m' : amap) : Prop := r = c /\ m' = m.
Definition store (m : amap) (k : val) (P : val -> Prop) (r : Z) (m' : amap) : Prop := r = 1%Z /\ m' = a_store m k P.
(** The key holds something, but not one number. *)
Definition no_number (P : val -> Prop) : Prop := several P \/ exists c, only P c /\ ~ is_number c.
Definition num_step (comb : Q -> Q -> Q) (m : amap) (k : val) (P : val -> Prop) (r : Z) (m' : amap) : Prop :=
  (none (cont m k) /\ store m k P r m') \/
  (exists c v p q s, only (cont m k) c /\ only P v /\ number c p /\ number v q /\ number s (comb p q) /\
     store m k (eq s) r m') \/
  (exists c v, only (cont m k) c /\ is_number c /\ only P v /\ ~ is_number v /\ keep (-1) m r m') \/
  (no_number (cont m k) /\ keep (-1) m r m').
Definition ext_step (better : Q -> Q -> Prop) (m : amap) (k : val) (P : val -> Prop) (r : Z) (m' : amap) : Prop :=
  (none (cont m k) /\ store m k P r m') \/
  (exists c v p q, only (cont m k) c /\ only P v /\ number c p /\ number v q /\
     ((better q p /\ store m k (eq v) r m') \/ (~ better q p /\ keep 1 m r m'))) \/
  (exists c, only (cont m k) c /\ is_number c /\ no_number P /\ keep (-1) m r m') \/
  (no_number (cont m k) /\ keep (-1) m r m').
Definition maybe (ifp : bool) (m : amap) (k : val) (P : val -> Prop) (r : Z) (m' : amap) (S : Prop) : Prop :=
  (none P /\ keep 0 m r m') \/
  (~ none P /\ ifp = true /\ ~ pres m k /\ keep 0 m r m') \/
  (~ none P /\ (ifp = true -> pres m k) /\ S).
Definition initial (P : val -> Prop) : Prop := none P \/ only P (VAtom 0) \/ only P (VAtom 85).
Definition op_step (op : tableop) (m : amap) (k : val) (P : val -> Prop) (r : Z) (m' : amap) : Prop :=
  match op with
  | Increment ifp => maybe ifp m k P r m' (num_step Qplus m k P r m')
  | Multiply ifp => maybe ifp m k P r m' (num_step Qmult m k P r m')
  | Maximize ifp => maybe ifp m k P r m' (ext_step (fun q p => p < q)%Q m k P r m')
  | Minimize ifp => maybe ifp m k P r m' (ext_step (fun q p => q < p)%Q m k P r m')
  | Default => (none (cont m k) /\ store m k P r m') \/ (~ none (cont m k) /\ keep 0 m r m')
  | Init => (initial (cont m k) /\ store m k P r m') \/ (~ initial (cont m k) /\ keep 0 m r m')
  | Replace | ReplaceNovoid => (pres m k /\ store m k P r m') \/ (~ pres m k /\ keep 0 m r m')
  | Push => exists v w, only P v /\ store m k (eq w) r m' /\
      ((none (cont m k) /\ w = VPair v (VAtom 17)) \/
       (exists a d, only (cont m k) (VPair a d) /\ w = VPair v (VPair a d)) \/
       (exists c, only (cont m k) c /\ (forall a d, c <> VPair a d) /\ w = VPair v (VPair c (VAtom 17))))
  end.
Inductive nop := Plain (o : hop) | Comp (op : tableop) (k : val) (e : prog).
Definition nstep (a : hstate) (o : nop) (r : Z) (a' : hstate) : Prop :=
  match o with
  | Plain o => hstep a o r a'
  | Comp op k e =>
    if emptyp k then nothing a r a'
    else if hro a then refuse a r a'
    else exists m', op_step op (hm a) k (den e) r m' /\ a' = hput a m'
  end.
Inductive nhist : hstate -> list nop -> list Z -> hstate -> Prop :=
| nh_nil a : nhist a [] [] a
| nh_cons a o r a1 ops rs a2 : nstep a o r a1 -> nhist a1 ops rs a2 -> nhist a (o :: ops) (r :: rs) a2.

(** ** Running the model *)
Definition n_step (hc : hcfg) (cf : config) (ht : hashtable) (o : nop) : option (Z * hashtable) :=
  match o with
  | Plain o => ht_step hc cf ht o
  | Comp op k e => do v <- run cf e; hashtable_op hc cf ht op k v
  end.
Fixpoint n_run (hc : hcfg) (cf : config) (ht : hashtable) (ops : list nop) : option (list Z * hashtable) :=
  match ops with
  | [] => Some ([], ht)
  | o :: ops =>
    do r <- n_step hc cf ht o; let (c, ht') := (r : Z * hashtable) in
    do rs <- n_run hc cf ht' ops; let (cs, ht'') := (rs : list Z * hashtable) in
    Some (c :: cs, ht'')
  end.
(** Numbers given to the table are exact reals in the representation of [number]; the
    operand of an increment or a product has at most one value. *)
Definition wf_nop (o : nop) : Prop :=
  match o with
  | Plain o => wf_hop o /\ match o with HStore _ e | HAdd _ _ e => forall y, den e y -> sound y | _ => True end
  | Comp op k e => okkey k /\ okval e /\ (forall y, den e y -> sound y) /\
      match op with Increment _ | Multiply _ => ~ several (den e) | Push => False | _ => True end
  end.
Definition ntouched (o : nop) (k : val) : Prop :=
  match o with Plain o => htouched o k | Comp _ k' _ => k = k' end.

(** ** The operations *)
Lemma only_none P c : only P c -> ~ none P.
Proof. intros O N. apply (N c). now apply O. Qed.
Lemma only_several P c : only P c -> ~ several P.
Proof. intros O (x & y & Hx & Hy & N). apply O in Hx, Hy. congruence. Qed.
Lemma several_none P : several P -> ~ none P.
Proof. intros (x & y & Hx & _) N. now apply (N x). Qed.
Lemma only_fun P c d : only P c -> only P d -> c = d.
Proof. intros A B. apply B. now apply A. Qed.

Section Sim.
Variable hc : hcfg.
Variable cf : config.
Hypothesis Hcf : cfg_ok cf.
Hypothesis Hsz : hcfg_ok hc.

Section Values.
Variables (ht : hashtable) (m : amap).
Hypothesis H : ht_ok hc ht m.
Hypothesis Hs : forall k y, cont m k y -> sound y.
Variables (k : val) (cur value : lv) (P : val -> Prop).
Hypothesis Hk : key_ok k.
Hypothesis Hcur : In (k, cur) (concat (buckets ht)) \/ ~ In k (keys_of (concat (buckets ht))) /\ cur = EMPTYV.
Hypothesis V : vgood value P.
Hypothesis Cl : forall y, P y -> clean y.
Hypothesis So : forall y, P y -> sound y.

Lemma cur_good : vgood cur (cont m k) /\ (forall y, cont m k y -> clean y).
Proof.
  pose proof (ho_R _ _ _ H) as HR. split.
  - destruct Hcur as [Hi|[Hn ->]]; [now apply (r_cont _ _ HR)|]. destruct (R_absent _ _ _ HR Hn) as [_ A].
    destruct emptyv_good as (A1 & A2 & A3). split; auto. split; auto. intros y. rewrite A3. split; [tauto|]. apply A.
  - intros y Hy. now apply (r_sub _ _ HR) in Hy.
Qed.
Lemma cur_in : ~ none (cont m k) -> In (k, cur) (concat (buckets ht)).
Proof.
  intros Hn. destruct Hcur as [Hi|[Hni _]]; auto. exfalso. apply Hn. exact (proj2 (R_absent _ _ _ (ho_R _ _ _ H) Hni)).
Qed.
Lemma eff_store new P' : vgood new P' -> (forall y, P' y -> clean y) -> effect ht m k cur new (a_store m k P').
Proof. intros. right. eauto. Qed.
Lemma eff_keep : ~ none (cont m k) -> effect ht m k cur cur m.
Proof. intros. left. auto using cur_in. Qed.
Lemma sound_number c : only (cont m k) c -> numeric c = true -> exists p, number c p.
Proof. intros O E. apply (Hs k c); [now apply O|now apply numeric_iff]. Qed.
Lemma not_numeric c : numeric c = false -> ~ is_number c.
Proof. intros E N. apply numeric_iff in N. congruence. Qed.
Lemma novalue_cases : novalue cur = true /\ none (cont m k) \/
  (exists c, novalue cur = false /\ cur = Simple (SVal c) /\ elt_ok c /\ only (cont m k) c /\ effect ht m k cur cur m) \/
  novalue cur = false /\ several (cont m k) /\ (forall c, cur <> Simple (SVal c)) /\ effect ht m k cur cur m.
Proof.
  destruct cur_good as [G Gc]. destruct (vgood_clean _ _ G Gc) as (_ & Ev & _).
  unfold novalue. rewrite Ev, Bool.orb_false_r.
  destruct (vgood_cases _ _ G) as [[E N]|[(c & E & Hc & O)|[S N]]].
  - left. rewrite E. auto.
  - right; left. exists c. split; [rewrite E; cbn; now apply elt_nonempty|]. split; auto. split; auto. split; auto.
    apply eff_keep. eapply only_none; eauto.
  - right; right. split; [|split; auto; split; auto; apply eff_keep; now apply several_none].
    destruct (lemptyp cur) eqn:E; auto. exfalso. apply (several_none _ S). exact (proj1 (vgood_empty _ _ G) E).
Qed.
Lemma num_op_spec f neutral (comb : Q -> Q -> Q) :
  (forall c p v q, number c p -> number v q -> exists n, f c v = Some n /\ number n (comb p q)) ->
  (forall p, comb p (inject_Z neutral) == p)%Q -> Proper (Qeq ==> Qeq ==> Qeq) comb ->
  ~ none P -> ~ several P ->
  exists c new m', num_op cf f neutral cur value = Some (c, new) /\ num_step comb m k P c m' /\ effect ht m k cur new m'.
Proof.
  intros Hf Hn Pc Ne Ns. unfold num_op.
  destruct novalue_cases as [[-> N]|[(c & -> & E & Hc & O & K)|(-> & S & N & K)]].
  - eexists _, _, _. split; [reflexivity|]. split; [left; split; [exact N|split; reflexivity]|]. now apply eff_store.
  - destruct (vgood_cases _ _ V) as [[_ N]|[(v & Ev' & Hv & Ov)|[S _]]]; [tauto| |tauto].
    rewrite Ev', E. destruct (numeric c) eqn:Ec.
    + cbn [simplify]. cbn [choice_elts]. rewrite (elt_nonempty v) by auto.
      destruct (sound_number c O Ec) as [p Np]. destruct (numeric v) eqn:Ev.
      * destruct (So v) as [q Nq]; [now apply Ov|now apply numeric_iff|].
        destruct (op_loop_one f neutral comb c p v q Hf Hn Pc Np Nq) as (s & -> & Nr).
        eexists _, _, (a_store m k (eq s)). split; [reflexivity|]. split.
        { right; left. exists c, v, p, q, s. repeat (split; [assumption|]). split; reflexivity. }
        rewrite <- E. destruct (number_clean _ _ Nr) as [E1 E2]. apply eff_store; [now apply vgood_one|]. intros y <-. exact E2.
      * rewrite op_loop_bad by now apply not_numeric. eexists _, _, m. split; [reflexivity|]. split.
        { right; right; left. exists c, v. split; auto. split; [now apply numeric_iff|]. split; auto.
          split; [now apply not_numeric|split; reflexivity]. }
        now rewrite <- E.
    + eexists _, _, m. split; [reflexivity|]. split; [|now rewrite <- E].
      right; right; right. split; [right; exists c; split; auto; now apply not_numeric|split; reflexivity].
  - exists (-1)%Z, cur, m. split; [destruct cur as [[c|]|]; auto; now destruct (N c)|]. split; [|exact K].
    right; right; right. split; [now left|split; reflexivity].
Qed.
Lemma ext_op_spec bt (better : Q -> Q -> Prop) :
  (forall q p, bt (AP.csign (q ?= p)%Q) = true <-> better q p) -> ~ none P ->
  exists c new m', ext_op bt cur value = Some (c, new) /\ ext_step better m k P c m' /\ effect ht m k cur new m'.
Proof.
  intros Hb Ne. unfold ext_op.
  destruct novalue_cases as [[-> N]|[(c & -> & E & Hc & O & K)|(-> & S & N & K)]].
  - eexists _, _, _. split; [reflexivity|]. split; [left; split; [exact N|split; reflexivity]|]. now apply eff_store.
  - rewrite E. rewrite E in K. destruct (numeric c) eqn:Ec.
    + destruct (sound_number c O Ec) as [p Np]. apply numeric_iff in Ec.
      assert (Bad : no_number P -> ext_step better m k P (-1) m).
      { intros B. right; right; left. exists c. split; auto. split; auto. split; auto. split; reflexivity. }
      destruct (vgood_cases _ _ V) as [[_ N]|[(v & Ev' & Hv & Ov)|[S N]]]; [tauto| |].
      * rewrite Ev'. destruct (numeric v) eqn:Ev.
        -- destruct (So v) as [q Nq]; [now apply Ov|now apply numeric_iff|].
           destruct (numcompare_value c p v q Np Nq) as (x & y & -> & -> & ->).
           destruct (bt (AP.csign (q ?= p)%Q)) eqn:Eb.
           ++ eexists _, _, (a_store m k (eq v)). split; [reflexivity|]. split.
              { right; left. exists c, v, p, q. repeat (split; [assumption|]). left. split; [now apply Hb|split; reflexivity]. }
              rewrite <- E. destruct (number_clean _ _ Nq) as [E1 E2]. apply eff_store; [now apply vgood_one|]. intros y' <-. exact E2.
           ++ eexists _, _, m. split; [reflexivity|]. split; [|exact K].
              right; left. exists c, v, p, q. repeat (split; [assumption|]). right. split; [|split; reflexivity].
              intros B. apply Hb in B. congruence.
        -- eexists _, _, m. split; [reflexivity|]. split; [|exact K]. apply Bad. right. exists v. split; auto. now apply not_numeric.
      * exists (-1)%Z, (Simple (SVal c)), m. split; [destruct value as [[c'|]|]; auto; now destruct (N c')|]. split; [|exact K].
        apply Bad. now left.
    + eexists _, _, m. split; [reflexivity|]. split; [|exact K].
      right; right; right. split; [right; exists c; split; auto; now apply not_numeric|split; reflexivity].
  - exists (-1)%Z, cur, m. split; [destruct cur as [[c|]|]; auto; now destruct (N c)|]. split; [|exact K].
    right; right; right. split; [now left|split; reflexivity].
Qed.
Lemma pair_ok v w : elt_ok v -> vp w -> elt_ok (VPair v w) /\ clean (VPair v w).
Proof.
  intros ((V1 & V2) & _) (W1 & W2). split; [|split; [reflexivity|discriminate]]. split; [split|split; [|split; [|split]]; discriminate].
  - rewrite vok_eq. now rewrite V1, W1.
  - cbn. now rewrite V2, W2.
Qed.
Lemma nil_vp : vp KNIL. Proof. split; reflexivity. Qed.
(** All the operations; present keys. *)
Lemma op_value_spec op : (lemptyp value && ignores_empty op = false)%bool ->
  (needs_key op = true -> In (k, cur) (concat (buckets ht))) ->
  match op with Increment _ | Multiply _ => ~ several P | Push => (exists v, only P v) /\ ~ several (cont m k) | _ => True end ->
  exists c new m', op_value cf op cur value = Some (c, new) /\ op_step op m k P c m' /\ effect ht m k cur new m'.
Proof.
  intros Ee Nk Hop. destruct cur_good as [G Gc]. destruct (vgood_clean _ _ G Gc) as (_ & Ev & _).
  assert (Pr : In (k, cur) (concat (buckets ht)) -> pres m k).
  { intros Hi. apply (r_pres _ _ (ho_R _ _ _ H)). eapply keys_in; eauto. }
  assert (Ne : ignores_empty op = true -> ~ none P).
  { intros Ei N. rewrite Ei, Bool.andb_true_r in Ee. apply (proj2 (vgood_empty _ _ V)) in N. congruence. }
  destruct op as [ifp|ifp|ifp|ifp| | | | |]; cbn [op_value op_step ignores_empty needs_key] in *;
    try (rewrite Ev, Bool.andb_false_r).
  - destruct (num_op_spec inc_one 0 Qplus inc_one_spec) as (c & new & m' & -> & S & E); auto; [intros p; ring|typeclasses eauto|].
    exists c, new, m'. split; [reflexivity|]. split; [right; right; split; auto|exact E].
  - destruct (num_op_spec mul_one 1 Qmult mul_one_spec) as (c & new & m' & -> & S & E); auto; [intros p; ring|typeclasses eauto|].
    exists c, new, m'. split; [reflexivity|]. split; [right; right; split; auto|exact E].
  - destruct (ext_op_spec (fun c => (0 <? c)%Z) (fun q p => p < q)%Q) as (c & new & m' & -> & S & E); auto.
    { intros q p. rewrite Qgt_alt. destruct (q ?= p)%Q; cbn; split; congruence. }
    exists c, new, m'. split; [reflexivity|]. split; [right; right; split; auto|exact E].
  - destruct (ext_op_spec (fun c => (c <? 0)%Z) (fun q p => q < p)%Q) as (c & new & m' & -> & S & E); auto.
    { intros q p. rewrite Qlt_alt. destruct (q ?= p)%Q; cbn; split; congruence. }
    exists c, new, m'. split; [reflexivity|]. split; [right; right; split; auto|exact E].
  - destruct novalue_cases as [[-> N]|[(c & -> & E & Hc & O & K)|(-> & S & N & K)]].
    + eexists _, _, _. split; [reflexivity|]. split; [left; split; [exact N|split; reflexivity]|]. now apply eff_store.
    + eexists _, _, m. split; [reflexivity|]. split; [right; split; [eapply only_none; eauto|split; reflexivity]|exact K].
    + eexists _, _, m. split; [reflexivity|]. split; [right; split; [now apply several_none|split; reflexivity]|exact K].
  - unfold uninit. destruct novalue_cases as [[-> N]|[(c & -> & E & Hc & O & K)|(-> & S & N & K)]].
    + cbn [orb]. eexists _, _, _. split; [reflexivity|]. split; [left; split; [now left|split; reflexivity]|]. now apply eff_store.
    + cbn [orb].
      assert (D : match cur with Simple (SVal (VAtom w)) => ((w =? 0) || (w =? 85))%N | _ => false end = true <-> initial (cont m k)).
      { rewrite E. split.
        - intros B. destruct c; try discriminate. right. apply Bool.orb_true_iff in B as [B|B]; apply N.eqb_eq in B; subst; auto.
        - intros [N|[O'|O']]; [now apply only_none in O|..]; rewrite (only_fun _ _ _ O O'); reflexivity. }
      destruct (match cur with Simple (SVal (VAtom w)) => _ | _ => _ end) eqn:Eb.
      * eexists _, _, _. split; [reflexivity|]. split; [left; split; [now apply D|split; reflexivity]|]. now apply eff_store.
      * eexists _, _, m. split; [reflexivity|]. split; [right; split; [|split; reflexivity]|exact K].
        intros I'. apply D in I'. congruence.
    + exists 0%Z, cur, m. split; [destruct cur as [[c|]|]; auto; now destruct (N c)|].
      split; [right; split; [|split; reflexivity]|exact K].
      intros [N'|[O|O]]; [now apply several_none in S|..]; now apply only_several in O.
  - eexists _, _, _. split; [reflexivity|]. split; [left; split; [apply Pr; auto|split; reflexivity]|]. now apply eff_store.
  - rewrite Ev. eexists _, _, _. split; [reflexivity|]. split; [left; split; [apply Pr; auto|split; reflexivity]|]. now apply eff_store.
  - destruct Hop as ((v & Ov) & Ns).
    destruct (vgood_cases _ _ V) as [[_ N]|[(v' & Ev' & Hv & Ov')|[S _]]]; [now apply only_none in Ov| |now apply only_several in Ov].
    assert (v' = v) by (eapply only_fun; eauto). subst v'. rewrite Ev'.
    assert (St : forall w, elt_ok w /\ clean w -> effect ht m k cur (Simple (SVal w)) (a_store m k (eq w))).
    { intros w [W1 W2]. apply eff_store; [now apply vgood_one|]. now intros y <-. }
    destruct novalue_cases as [[-> N]|[(c & -> & E & Hc & O & K)|(-> & S & N & K)]]; [| |tauto].
    + eexists _, _, _. split; [reflexivity|]. split; [|apply St, pair_ok; auto; apply nil_vp].
      exists v. eexists. split; auto. split; [split; reflexivity|left; split; auto; reflexivity].
    + assert (Q : (exists a d, c = VPair a d) \/ forall a d, c <> VPair a d) by (destruct c; try (right; discriminate); eauto).
      destruct Q as [(a & d & Ec)|Nc].
      * subst c. rewrite E. eexists _, _, _. split; [reflexivity|]. rewrite <- E. split; [|apply St, pair_ok; auto; apply Hc].
        exists v. eexists. split; auto. split; [split; reflexivity|right; left; eauto].
      * assert (Es : (match cur with Simple (SVal (VPair a d)) => Some (1%Z, Simple (SVal (VPair v (VPair a d))))
           | Simple (SVal c) => Some (1%Z, Simple (SVal (VPair v (VPair c KNIL)))) | _ => None end)
           = Some (1%Z, Simple (SVal (VPair v (VPair c KNIL))))).
        { rewrite E. destruct c; auto. now destruct (Nc c1 c2). }
        rewrite Es. eexists _, _, _. split; [reflexivity|]. split.
        -- exists v. eexists. split; auto. split; [split; reflexivity|right; right; eauto].
        -- apply St, pair_ok; auto. apply pair_ok; [auto|apply nil_vp].
Qed.
End Values.

(** ** One step *)
Definition nsim (ht : hashtable) (a : hstate) : Prop :=
  hsim hc ht a /\ forall k y, cont (hm a) k y -> sound y.
Definition nframe (o : nop) (ht ht' : hashtable) : Prop :=
  forall k v, ~ ntouched o k -> (In (k, v) (concat (buckets ht')) <-> In (k, v) (concat (buckets ht))).
Lemma pair_sound a d : sound (VPair a d).
Proof. intros [(w & E & _)|[n E]]; discriminate. Qed.
Lemma store_sound m k (P : val -> Prop) : (forall k y, cont m k y -> sound y) -> (forall y, P y -> sound y) ->
  forall k' y, cont (a_store m k P) k' y -> sound y.
Proof. intros A B k' y [[_ Hy]|[_ Hy]]; eauto. Qed.
Lemma op_step_sound op m k (P : val -> Prop) r m' : (forall k y, cont m k y -> sound y) -> (forall y, P y -> sound y) ->
  op_step op m k P r m' -> forall k' y, cont m' k' y -> sound y.
Proof.
  intros Hm HP.
  assert (Kp : forall c, keep c m r m' -> forall k' y, cont m' k' y -> sound y) by (intros c [_ ->]; auto).
  assert (St : store m k P r m' -> forall k' y, cont m' k' y -> sound y) by (intros [_ ->]; now apply store_sound).
  assert (S1 : forall s, sound s -> store m k (eq s) r m' -> forall k' y, cont m' k' y -> sound y).
  { intros s Hs [_ ->]. apply store_sound; auto. now intros y <-. }
  assert (Nm : forall comb, num_step comb m k P r m' -> forall k' y, cont m' k' y -> sound y).
  { intros comb [[_ E]|[(c & v & p & q & s & _ & _ & _ & _ & Ns & E)|[(c & v & _ & _ & _ & _ & E)|[_ E]]]]; eauto.
    eapply S1; [|exact E]. intros _. eauto. }
  assert (Ex : forall better, ext_step better m k P r m' -> forall k' y, cont m' k' y -> sound y).
  { intros bt [[_ E]|[(c & v & p & q & _ & O & _ & Nv & [[_ E]|[_ E]])|[(c & _ & _ & _ & E)|[_ E]]]]; eauto.
    eapply S1; [|exact E]. intros _. eauto. }
  destruct op; cbn [op_step].
  1-4: intros [[_ E]|[(_ & _ & _ & E)|(_ & _ & E)]]; eauto.
  1-4: intros [[_ E]|[_ E]]; eauto.
  intros (v & w & _ & E & D). eapply S1; [|exact E].
  destruct D as [[_ ->]|[(a & d & _ & ->)|(c & _ & _ & ->)]]; apply pair_sound.
Qed.
Lemma hstep_sound a o r a' : (forall k y, cont (hm a) k y -> sound y) -> wf_nop (Plain o) -> hstep a o r a' ->
  forall k y, cont (hm a') k y -> sound y.
Proof.
  intros Hm [_ HP].
  destruct o as [k e|sh k e|k e|k|b|n|n]; cbn [hstep].
  - destruct (emptyp k); [intros [_ ->]; auto|]. destruct (hro a); [intros [_ ->]; auto|]. intros [_ ->]. now apply store_sound.
  - destruct (emptyp k); [intros [_ ->]; auto|]. destruct (hro a); [intros [_ ->]; auto|].
    intros [[[_ ->] _]|(_ & _ & ->)]; auto. intros k' y [Hy|[_ Hy]]; eauto.
  - destruct (emptyp k); [intros [_ ->]; auto|]. intros [(_ & _ & [_ ->])|(_ & _ & ->)]; auto.
    intros k' y Hy. apply (Hm k' y). cbn in Hy. tauto.
  - destruct (emptyp k); [intros [_ ->]; auto|]. intros [(_ & _ & [_ ->])|(_ & _ & ->)]; auto.
    intros k' y Hy. apply (Hm k' y). cbn in Hy. tauto.
  - intros [_ ->]. auto.
  - intros [_ ->]. auto.
  - intros [_ ->] k y [].
Qed.
Definition push_ok (a : hstate) (o : nop) : Prop :=
  match o with
  | Comp Push k e => okkey k /\ okval e /\ (forall y, den e y -> sound y) /\ (exists v, only (den e) v) /\ ~ several (cont (hm a) k)
  | _ => False
  end.
Lemma comp_sim ht a op k e : nsim ht a -> wf_nop (Comp op k e) \/ push_ok a (Comp op k e) -> (n_keys ht < 2 ^ 28)%N ->
  exists r ht' a', n_step hc cf ht (Comp op k e) = Some (r, ht') /\ nstep a (Comp op k e) r a' /\ nsim ht' a' /\
    nframe (Comp op k e) ht ht' /\ (n_keys ht' <= n_keys ht + 1)%N.
Proof.
  intros [HS Hs] Hw Hb. pose proof HS as [M HRo]. cbn [n_step nstep].
  assert (W : okkey k /\ okval e /\ (forall y, den e y -> sound y) /\
     match op with Increment _ | Multiply _ => ~ several (den e)
       | Push => (exists v, only (den e) v) /\ ~ several (cont (hm a) k) | _ => True end).
  { destruct Hw as [(A & B & C & D)|Hp]; [split; auto; split; auto; split; auto; destruct op; auto; tauto|].
    destruct op; now destruct Hp. }
  clear Hw. destruct W as (Hkk & He & So & Hop).
  destruct (okval_run cf e Hcf He) as (v & -> & V & T). destruct Hkk as [->|Hk].
  { exists 0%Z, ht, a. split; [reflexivity|]. split; [split; reflexivity|]. split; [split; auto|]. split; [intros ? ? _; tauto|lia]. }
  destruct (key_guard k Hk) as [G1 G2]. rewrite G2. destruct (hro a) eqn:Er.
  { exists (-1)%Z. unfold hashtable_op, do_hashtable_op. rewrite G1, G2, T, HRo.
    destruct (auto_resize_spec hc ht (hm a) Hsz M) as (ht2 & -> & A1 & A2 & A3 & A4); [lia|].
    exists ht2, a. split; [reflexivity|]. split; [split; reflexivity|]. split.
    - split; auto. split; [auto|]. congruence.
    - split; [|lia]. intros k' v' _. split; apply Permutation_in; [auto|now symmetry]. }
  assert (Ve : lemptyp v = true <-> none (den e)) by exact (vgood_empty _ _ V).
  destruct (op_core hc cf Hsz ht (hm a) M op k v (fun r m' => op_step op (hm a) k (den e) r m') Hk T HRo) as
    (r & ht1 & m1 & E & S & M1 & B1 & F1 & L1).
  - intros Ee Ig. destruct op; try discriminate Ig; (left; split; [now apply Ve|split; reflexivity]).
  - intros Nk Hn. assert (Np : ~ pres (hm a) k) by now rewrite (r_pres _ _ (ho_R _ _ _ M)).
    destruct op; try discriminate Nk; cbn [needs_key] in Nk; subst; cbn [op_step].
    1-4: destruct (lemptyp v) eqn:El; [left; split; [now apply Ve|split; reflexivity]|].
    1-4: right; left; split; [intros N; apply Ve in N; congruence|]; split; [reflexivity|]; split; [exact Np|split; reflexivity].
    1-2: right; split; [exact Np|split; reflexivity].
  - intros cur Ee Hc. apply (op_value_spec ht (hm a) M Hs k cur v (den e)); auto.
    + destruct Hc as [Hc|(_ & Hc)]; auto.
    + apply He.
    + intros Nk. destruct Hc as [Hc|(Hc & _)]; auto. congruence.
  - destruct (op_core' hc cf Hsz ht op k v r ht1 m1 Hb Hk T E M1 F1 L1) as (ht2 & -> & M2 & B2 & F2 & L2).
    exists r, ht2, (hput a m1). split; [reflexivity|]. split; [eauto|]. split; [|split; [|lia]].
    + split; [split; [exact M2|cbn; congruence]|]. cbn. eapply op_step_sound; eauto.
    + intros k' v' Hn. now apply F2.
Qed.
Lemma nstep_sim ht a o : nsim ht a -> wf_nop o -> (n_keys ht < 2 ^ 28)%N ->
  exists r ht' a', n_step hc cf ht o = Some (r, ht') /\ nstep a o r a' /\ nsim ht' a' /\ nframe o ht ht' /\
    (n_keys ht' <= n_keys ht + 1)%N.
Proof.
  intros N Hw Hb. destruct o as [o|op k e]; [|apply comp_sim; auto]. destruct N as [HS Hs].
  destruct (hstep_sim hc cf Hcf Hsz ht a o HS (proj1 Hw) Hb) as (r & ht' & a' & E & A & S1 & F & L).
  exists r, ht', a'. split; [exact E|]. split; [exact A|]. split; [|split; [exact F|exact L]].
  split; [exact S1|]. eapply hstep_sound; eauto.
Qed.
Lemma nrun_sim ops : Forall wf_nop ops -> forall ht a, nsim ht a ->
  (n_keys ht + N.of_nat (length ops) <= 2 ^ 28)%N ->
  exists rs ht' a', n_run hc cf ht ops = Some (rs, ht') /\ nhist a ops rs a' /\ nsim ht' a' /\
    (n_keys ht' <= n_keys ht + N.of_nat (length ops))%N.
Proof.
  induction 1 as [|o ops Ho Hops IH]; intros ht a HS Hb; cbn [n_run].
  - exists [], ht, a. split; auto. split; [constructor|]. split; auto. lia.
  - cbn [length] in Hb. destruct (nstep_sim ht a o HS Ho) as (r & ht1 & a1 & -> & A & S1 & _ & L); [lia|].
    destruct (IH ht1 a1 S1) as (rs & ht2 & a2 & -> & A2 & S2 & L2); [lia|].
    exists (r :: rs), ht2, a2. split; auto. split; [econstructor; eauto|]. split; auto. cbn [length]. lia.
Qed.
Lemma nsim_init n ht : make_hashtable n = Some ht -> nsim ht h_init /\ n_keys ht = 0%N.
Proof.
  intros E. destruct (hsim_init hc n ht E) as [S0 N0]. split; auto. split; auto. intros k y [].
Qed.
(** Reachable tables. *)
Definition nreaches (n : Z) (ops : list nop) (rs : list Z) (ht : hashtable) : Prop :=
  (n < 1610612741)%Z /\ (N.of_nat (length ops) < 2 ^ 28)%N /\ Forall wf_nop ops /\
  exists ht0, make_hashtable n = Some ht0 /\ n_run hc cf ht0 ops = Some (rs, ht).
Lemma nreaches_sim n ops rs ht : nreaches n ops rs ht ->
  exists a, nhist h_init ops rs a /\ nsim ht a /\ (n_keys ht < 2 ^ 28)%N.
Proof.
  intros (_ & Hl & Hw & ht0 & E0 & E). destruct (nsim_init n ht0 E0) as [S0 N0].
  destruct (nrun_sim ops Hw ht0 h_init S0) as (rs' & ht' & a & E' & A & S1 & L); [lia|].
  rewrite E in E'. injection E' as <- <-. exists a. split; auto. split; auto. lia.
Qed.
End Sim.

(** ** C54: the operations *)
(** Every history of stores, additions, removals and computing operations runs on a table
    of any size; the codes and the lookups are those of the abstract map. *)
Theorem C54_operations_partial : forall hc cf n ops, 0 < block_size cf -> hcfg_ok hc ->
  (n < 1610612741)%Z -> (N.of_nat (length ops) < 2 ^ 28)%N -> Forall wf_nop ops ->
  exists ht0 rs ht a, make_hashtable n = Some ht0 /\ n_run hc cf ht0 ops = Some (rs, ht) /\
    nhist h_init ops rs a /\
    (exists ks, NoDup ks /\ (forall k, In k ks <-> pres (hm a) k) /\ n_keys ht = N.of_nat (length ks)) /\
    forall k d, key_ok k -> exists v, hashtable_get hc cf ht k d = Some v /\
      (pres (hm a) k -> exists s, v = Simple s /\ canonical s (cont (hm a) k)) /\
      (~ pres (hm a) k -> v = d).
Proof.
  intros hc cf n ops Hcf Hsz Hn Hl Hw.
  assert (exists ht0, make_hashtable n = Some ht0) as [ht0 E0].
  { unfold make_hashtable. destruct (n =? 0)%Z; eauto. destruct (Z.ltb_spec n 0); eauto.
    destruct (sizes_exist (Z.to_N n)) as [s ->]; eauto. lia. }
  destruct (nsim_init hc n ht0 E0) as [S0 N0].
  destruct (nrun_sim hc cf Hcf Hsz ops Hw ht0 h_init S0) as (rs & ht & a & E & A & [[M _] _] & _); [lia|].
  exists ht0, rs, ht, a. split; auto. split; auto. split; auto. split.
  - exists (keys_of (concat (buckets ht))). split; [apply (r_nodup _ _ (ho_R _ _ _ M))|].
    split; [intros k; now rewrite (r_pres _ _ (ho_R _ _ _ M))|]. rewrite keys_len. apply (ho_count _ _ _ M).
  - intros k d Hk. destruct (h_get_spec hc cf Hcf ht (hm a) M k d Hk) as (v & Ev & G1 & G2).
    exists v. split; auto. split; auto. intros Hp. destruct (G1 Hp) as (s & -> & Rs). exists s. split; auto. now apply represents_canonical.
Qed.
(** An operation on one key leaves the lookups of every other key unchanged. *)
Theorem C54_other_keys_partial : forall hc cf n ops rs ht o r ht' k d, 0 < block_size cf -> hcfg_ok hc ->
  nreaches hc cf n ops rs ht -> wf_nop o -> n_step hc cf ht o = Some (r, ht') ->
  key_ok k -> ~ ntouched o k -> hashtable_get hc cf ht' k d = hashtable_get hc cf ht k d.
Proof.
  intros hc cf n ops rs ht o r ht' k d Hcf Hsz Hr Ho E Hk Ht.
  destruct (nreaches_sim hc cf Hcf Hsz n ops rs ht Hr) as (a & _ & S1 & L).
  destruct (nstep_sim hc cf Hcf Hsz ht a o S1 Ho L) as (r2 & ht2 & a2 & E2 & _ & [[M2 _] _] & F & _).
  rewrite E in E2. injection E2 as <- <-. destruct S1 as [[M _] _].
  destruct (h_in_dec hc ht (hm a) M k) as [Hi|Hn]; [apply Hk| |].
  - apply in_keys in Hi as [c Hin]. rewrite (h_get_entry hc cf ht (hm a) M k c d Hin Hk).
    apply (h_get_entry hc cf ht' (hm a2) M2); auto. now apply F.
  - rewrite (h_get_absent hc cf ht (hm a) M k d Hn Hk). apply (h_get_absent hc cf ht' (hm a2) M2); auto.
    intros Hi. apply in_keys in Hi as [c Hi]. apply F in Hi; auto. apply Hn. eapply keys_in; eauto.
Qed.

(** ** Totals *)
(** The operands applied to the key [k], in order: the histories in which [k] is touched
    by nothing but [op] with one number, and the numbers whose operation returned 1. *)
Inductive applied (is_op : tableop -> Prop) (k : val) : list nop -> list Z -> list Q -> Prop :=
| ap_nil : applied is_op k [] [] []
| ap_other o ops r rs qs : ~ ntouched o k -> applied is_op k ops rs qs -> applied is_op k (o :: ops) (r :: rs) qs
| ap_op op e v q ops r rs qs : is_op op -> only (den e) v -> number v q -> applied is_op k ops rs qs ->
    applied is_op k (Comp op k e :: ops) (r :: rs) (if (r =? 1)%Z then q :: qs else qs).
Definition step_total (comb : Q -> Q -> Q) (acc : option Q) (q : Q) : option Q :=
  match acc with None => Some q | Some p => Some (comb p q) end.
Definition holds (a : hstate) (k : val) (acc : option Q) : Prop :=
  match acc with
  | None => ~ pres (hm a) k /\ none (cont (hm a) k)
  | Some q => pres (hm a) k /\ exists s, only (cont (hm a) k) s /\ number s q
  end.
(** What the totals need of an operation: the first operand is stored, later ones are
    combined. *)
Definition total_op (comb : Q -> Q -> Q) (op : tableop) : Prop :=
  forall m k P r m' v q, only P v -> number v q -> op_step op m k P r m' ->
    (r <> 1%Z -> m' = m) /\
    (r = 1%Z -> none (cont m k) -> m' = a_store m k P) /\
    (forall c p, only (cont m k) c -> number c p -> pres m k -> r = 1%Z /\ exists s, number s (comb p q) /\
       ((m' = a_store m k (eq s)) \/ (m' = m /\ s = c))).
Lemma store_at m k P : pres (a_store m k P) k /\ forall y, cont (a_store m k P) k y <-> P y.
Proof. split; [now left|]. intros y. cbn. tauto. Qed.
Lemma hstep_other a o r a' k : hstep a o r a' -> ~ htouched o k ->
  (pres (hm a') k <-> pres (hm a) k) /\ forall y, cont (hm a') k y <-> cont (hm a) k y.
Proof.
  intros S N. destruct o as [k' e|sh k' e|k' e|k'|b|n|n]; cbn [hstep htouched] in *.
  1-4: destruct (emptyp k'); [destruct S as [_ ->]; split; [|intros y]; reflexivity|].
  1-2: destruct (hro a); [destruct S as [_ ->]; split; [|intros y]; reflexivity|].
  - destruct S as [_ ->]. cbn. split; [|intros y]; intuition congruence.
  - destruct S as [[[_ ->] _]|(_ & _ & ->)]; [split; [|intros y]; reflexivity|]. cbn. split; [|intros y]; intuition congruence.
  - destruct S as [(_ & _ & [_ ->])|(_ & _ & ->)]; [split; [|intros y]; reflexivity|]. cbn. split; [|intros y]; intuition congruence.
  - destruct S as [(_ & _ & [_ ->])|(_ & _ & ->)]; [split; [|intros y]; reflexivity|]. cbn. split; [|intros y]; intuition congruence.
  - destruct S as [_ ->]. cbn. split; [|intros y]; reflexivity.
  - destruct S as [_ ->]. split; [|intros y]; reflexivity.
  - tauto.
Qed.
Lemma op_step_shape op m k (P : val -> Prop) r m' : op_step op m k P r m' -> m' = m \/ exists P', m' = a_store m k P'.
Proof.
  assert (Kp : forall c, keep c m r m' -> m' = m \/ exists P', m' = a_store m k P') by (intros c [_ ->]; auto).
  assert (St : forall P0, store m k P0 r m' -> m' = m \/ exists P', m' = a_store m k P') by (intros P0 [_ ->]; eauto).
  assert (Nm : forall comb, num_step comb m k P r m' -> m' = m \/ exists P', m' = a_store m k P').
  { intros comb [[_ E]|[(c & v & p & q & s & _ & _ & _ & _ & _ & E)|[(c & v & _ & _ & _ & _ & E)|[_ E]]]]; eauto. }
  assert (Ex : forall bt, ext_step bt m k P r m' -> m' = m \/ exists P', m' = a_store m k P').
  { intros bt [[_ E]|[(c & v & p & q & _ & _ & _ & _ & [[_ E]|[_ E]])|[(c & _ & _ & _ & E)|[_ E]]]]; eauto. }
  destruct op; cbn [op_step].
  1-4: intros [[_ E]|[(_ & _ & _ & E)|(_ & _ & E)]]; eauto.
  1-4: intros [[_ E]|[_ E]]; eauto.
  intros (v & w & _ & E & _). eauto.
Qed.
Lemma nstep_other a o r a' k : nstep a o r a' -> ~ ntouched o k ->
  (pres (hm a') k <-> pres (hm a) k) /\ forall y, cont (hm a') k y <-> cont (hm a) k y.
Proof.
  destruct o as [o|op k' e]; [apply hstep_other|]. cbn [nstep ntouched]. intros S N.
  destruct (emptyp k'); [destruct S as [_ ->]; split; [|intros y]; reflexivity|].
  destruct (hro a); [destruct S as [_ ->]; split; [|intros y]; reflexivity|].
  destruct S as (m' & S & ->). cbn [hput hm].
  destruct (op_step_shape _ _ _ _ _ _ S) as [->|[P' ->]]; [split; [|intros y]; reflexivity|].
  cbn. split; [|intros y]; intuition congruence.
Qed.
Lemma holds_ext a a' k acc : (pres (hm a') k <-> pres (hm a) k) -> (forall y, cont (hm a') k y <-> cont (hm a) k y) ->
  holds a k acc -> holds a' k acc.
Proof.
  intros Hp Hc. destruct acc as [q|]; cbn.
  - intros [A (s & O & N)]. split; [now apply Hp|]. exists s. split; auto. intros y. now rewrite Hc.
  - intros [A B]. split; [now rewrite Hp|]. intros y. rewrite Hc. apply B.
Qed.
Lemma totals comb (is_op : tableop -> Prop) k : (forall op, is_op op -> total_op comb op) -> Proper (Qeq ==> Qeq ==> Qeq) comb ->
  emptyp k = false ->
  forall ops rs qs, applied is_op k ops rs qs -> forall a a' acc, nhist a ops rs a' -> holds a k acc ->
    holds a' k (fold_left (step_total comb) qs acc).
Proof.
  intros Hop Pc Hk ops rs qs A. induction A as [|o ops r rs qs Hn A IH|op e v q ops r rs qs Ho Ov Nv A IH]; intros a a' acc HH Ha;
    inversion HH as [|? ? ? a1 ? ? ? S HH']; subst.
  - exact Ha.
  - apply (IH a1 a'); auto. destruct (nstep_other _ _ _ _ _ S Hn) as [S1 S2]. now apply (holds_ext a).
  - cbn [nstep] in S. rewrite Hk in S. destruct (hro a).
    { destruct S as [-> ->]. cbn [Z.eqb]. now apply (IH a a'). }
    destruct S as (m' & S & ->).
    destruct (Hop op Ho _ _ _ _ _ _ _ Ov Nv S) as (T1 & T2 & T3).
    assert (Q : r = 1%Z \/ r <> 1%Z) by lia. destruct Q as [->|Hr].
    + cbn [Z.eqb Pos.eqb fold_left]. apply (IH (hput a m') a'); auto.
      destruct acc as [p|]; cbn [holds step_total hput hm] in *.
      * destruct Ha as (Hp & c & Oc & Nc). destruct (T3 c p Oc Nc Hp) as (_ & s & Ns & [->|[-> ->]]).
        -- destruct (store_at (hm a) k (eq s)) as [B1 B2]. split; auto. exists s. split; auto. intros y. rewrite B2. split; congruence.
        -- split; auto. exists c. auto.
      * destruct Ha as [Hp Hc]. rewrite (T2 eq_refl Hc). destruct (store_at (hm a) k (den e)) as [B1 B2].
        split; auto. exists v. split; auto. intros y. now rewrite B2.
    + replace (r =? 1)%Z with false by (symmetry; now apply Z.eqb_neq). apply (IH (hput a m') a'); auto.
      rewrite (T1 Hr). eapply holds_ext; [..|exact Ha]; [|intros y]; reflexivity.
Qed.
Definition increments (op : tableop) : Prop := exists b, op = Increment b.
Definition products (op : tableop) : Prop := exists b, op = Multiply b.
Definition maxima (op : tableop) : Prop := exists b, op = Maximize b.
Definition minima (op : tableop) : Prop := exists b, op = Minimize b.
Lemma number_fun v p q : number v p -> number v q -> (p == q)%Q.
Proof.
  intros A B. inversion A as [z1 w1 q1 R1 W1 E1|z1 q1 R1 E1|n1 d1 q1 R1 G1 E1]; subst; inversion B as [z2 w2 q2 R2 W2 E2|z2 q2 R2 E2|n2 d2 q2 R2 G2 E2]; subst;
    rewrite E1, E2; try reflexivity.
  rewrite <- (word_fix_eq z1 w1) by (auto; lia). rewrite <- (word_fix_eq z2 w1) by (auto; lia). reflexivity.
Qed.
Lemma num_total comb ifp m k P r m' v q :
  Proper (Qeq ==> Qeq ==> Qeq) comb ->
  only P v -> number v q -> maybe ifp m k P r m' (num_step comb m k P r m') ->
    (r <> 1%Z -> m' = m) /\ (r = 1%Z -> none (cont m k) -> m' = a_store m k P) /\
    (forall c p, only (cont m k) c -> number c p -> pres m k -> r = 1%Z /\ exists s, number s (comb p q) /\
       ((m' = a_store m k (eq s)) \/ (m' = m /\ s = c))).
Proof.
  intros Pc Ov Nv [[N _]|[(_ & _ & Np & [-> ->])|(_ & _ & S)]].
  - now apply only_none in Ov.
  - split; auto. split; [discriminate|]. tauto.
  - destruct S as [[N [-> ->]]|[(c0 & v0 & p0 & q0 & s & Oc & Ov' & Nc & Nv' & Ns & [-> ->])|[(c0 & v0 & _ & _ & Ov' & B & _)|[B [-> ->]]]]].
    + split; [congruence|]. split; auto. intros c p O. now apply only_none in O.
    + split; [congruence|]. split; [intros _ N; now apply only_none in Oc|]. intros c p O Np _. split; auto. exists s. split; auto.
      assert (c0 = c) by (eapply only_fun; eauto). assert (v0 = v) by (eapply only_fun; eauto). subst.
      apply (number_eq _ _ _ Ns). apply Pc; eapply number_fun; eauto.
    + exfalso. apply B. assert (v0 = v) by (eapply only_fun; eauto). subst. eapply number_is; eauto.
    + split; auto. split; [discriminate|]. intros c p O Np _. exfalso. destruct B as [B|(c0 & O0 & B)].
      * now apply only_several in O.
      * apply B. assert (c0 = c) by (eapply only_fun; eauto). subst. eapply number_is; eauto.
Qed.
Lemma ext_total (better : Q -> Q -> Prop) comb ifp m k P r m' v q :
  (forall q p, better q p -> comb p q == q)%Q -> (forall q p, ~ better q p -> comb p q == p)%Q ->
  (forall q p q' p', q == q' -> p == p' -> better q p -> better q' p')%Q ->
  only P v -> number v q -> maybe ifp m k P r m' (ext_step better m k P r m') ->
    (r <> 1%Z -> m' = m) /\ (r = 1%Z -> none (cont m k) -> m' = a_store m k P) /\
    (forall c p, only (cont m k) c -> number c p -> pres m k -> r = 1%Z /\ exists s, number s (comb p q) /\
       ((m' = a_store m k (eq s)) \/ (m' = m /\ s = c))).
Proof.
  intros B1 B2 B3 Ov Nv [[N _]|[(_ & _ & Np & [-> ->])|(_ & _ & S)]].
  - now apply only_none in Ov.
  - split; auto. split; [discriminate|]. tauto.
  - destruct S as [[N [-> ->]]|[(c0 & v0 & p0 & q0 & Oc & Ov' & Nc & Nv' & D)|[(c0 & Oc & _ & B & [-> ->])|[B [-> ->]]]]].
    + split; [congruence|]. split; auto. intros c p O. now apply only_none in O.
    + assert (v0 = v) by (eapply only_fun; eauto). subst v0.
      assert (Eq : (q0 == q)%Q) by (eapply number_fun; eauto).
      destruct D as [[D [-> ->]]|[D [-> ->]]]; (split; [congruence|]); (split; [intros _ N; now apply only_none in Oc|]);
        intros c p O Np _; (split; [reflexivity|]);
        (assert (Ec : c0 = c) by (eapply only_fun; eauto)); subst c0;
        (assert (Ep : (p0 == p)%Q) by (eapply number_fun; eauto)).
      * exists v. split; [|now left]. apply (number_eq _ q); auto. apply B1. eapply B3; eauto.
      * exists c. split; [|now right]. apply (number_eq _ p); auto. apply B2. intros B. apply D. eapply B3; [..|exact B]; now symmetry.
    + split; auto. split; [discriminate|]. intros c p O Np _. exfalso. destruct B as [B|(v0 & O0 & B)].
      * now apply only_several in Ov.
      * apply B. assert (v0 = v) by (eapply only_fun; eauto). subst. eapply number_is; eauto.
    + split; auto. split; [discriminate|]. intros c p O Np _. exfalso. destruct B as [B|(c1 & O0 & B)].
      * now apply only_several in O.
      * apply B. assert (c1 = c) by (eapply only_fun; eauto). subst. eapply number_is; eauto.
Qed.
Lemma inc_total op : increments op -> total_op Qplus op.
Proof. intros [b ->] m k P r m' v q Ov Nv S. eapply num_total; eauto. typeclasses eauto. Qed.
Lemma mul_total op : products op -> total_op Qmult op.
Proof. intros [b ->] m k P r m' v q Ov Nv S. eapply num_total; eauto. typeclasses eauto. Qed.
Lemma max_total op : maxima op -> total_op Qmax op.
Proof.
  intros [b ->] m k P r m' v q Ov Nv S. eapply (ext_total (fun q p => p < q)%Q); eauto; cbn beta.
  - intros q' p' L. apply Q.max_r. now apply Qlt_le_weak.
  - intros q' p' L. apply Q.max_l. now apply Qnot_lt_le.
  - intros ? ? ? ? E1 E2 L. now rewrite <- E1, <- E2.
Qed.
Lemma min_total op : minima op -> total_op Qmin op.
Proof.
  intros [b ->] m k P r m' v q Ov Nv S. eapply (ext_total (fun q p => q < p)%Q); eauto; cbn beta.
  - intros q' p' L. apply Q.min_r. now apply Qlt_le_weak.
  - intros q' p' L. apply Q.min_l. now apply Qnot_lt_le.
  - intros ? ? ? ? E1 E2 L. now rewrite <- E1, <- E2.
Qed.
Lemma totals_get comb (is_op : tableop -> Prop) hc cf n ops rs ht k qs d : 0 < block_size cf -> hcfg_ok hc ->
  (forall op, is_op op -> total_op comb op) -> Proper (Qeq ==> Qeq ==> Qeq) comb ->
  nreaches hc cf n ops rs ht -> key_ok k -> applied is_op k ops rs qs ->
  hashtable_get hc cf ht k d = Some d /\ qs = [] \/
  exists q0 qs' s, qs = q0 :: qs' /\ hashtable_get hc cf ht k d = Some (Simple (SVal s)) /\ number s (fold_left comb qs' q0).
Proof.
  intros Hcf Hsz Hop Pc Hr Hk A. destruct (nreaches_sim hc cf Hcf Hsz n ops rs ht Hr) as (a & HH & [[M _] _] & _).
  pose proof (totals comb is_op k Hop Pc (proj2 (key_guard k Hk)) ops rs qs A h_init a None HH) as T.
  specialize (T (conj (fun x => x) (fun y (x : False) => x))).
  destruct (h_get_spec hc cf Hcf ht (hm a) M k d Hk) as (v & -> & G1 & G2).
  destruct qs as [|q0 qs'].
  - left. cbn [fold_left holds] in T. rewrite (G2 (proj1 T)). auto.
  - right. exists q0, qs'. cbn [fold_left step_total] in T.
    assert (F : forall l q, fold_left (step_total comb) l (Some q) = Some (fold_left comb l q)).
    { induction l as [|x l IH]; intros q; cbn [fold_left step_total]; auto. }
    rewrite F in T. destruct T as [Hp (s & O & Ns)]. exists s. split; auto. split; auto.
    destruct (G1 Hp) as (s' & -> & Rs). do 2 f_equal. apply represents_canonical in Rs. destruct s' as [v|c l]; cbn [canonical] in Rs.
    + f_equal. destruct Rs as [[_ N]|[_ O']]; [exfalso; now apply (N s), O|]. eapply only_fun; eauto.
    + exfalso. destruct Rs as (L & _ & Nd & Rs). destruct l as [|x [|y l]]; cbn in L; try lia.
      inversion Nd as [|? ? Nx _]; subst. apply Nx. left.
      transitivity s; [apply O, Rs; cbn; auto|symmetry; apply O, Rs; cbn; auto].
Qed.

(** *** C20 *)
(** The value of a key that is only incremented is the exact sum of the increments that
    returned 1; whatever is done to other keys in between, and with resizing and
    read-only phases. *)
Theorem C20_sum_partial : forall hc cf n ops rs ht k qs d, 0 < block_size cf -> hcfg_ok hc ->
  nreaches hc cf n ops rs ht -> key_ok k -> applied increments k ops rs qs ->
  exists v, hashtable_get hc cf ht k d = Some v /\ (qs = [] -> v = d) /\
    (qs <> [] -> exists s, v = Simple (SVal s) /\ number s (fold_right Qplus 0%Q qs)).
Proof.
  intros hc cf n ops rs ht k qs d Hcf Hsz Hr Hk A.
  destruct (totals_get Qplus increments hc cf n ops rs ht k qs d Hcf Hsz inc_total _ Hr Hk A) as [[E ->]|(q0 & qs' & s & -> & E & Ns)].
  - exists d. split; auto. split; auto. congruence.
  - exists (Simple (SVal s)). split; auto. split; [discriminate|]. intros _. exists s. split; auto. apply (number_eq _ _ _ Ns).
    clear. revert q0. induction qs' as [|x l IH]; intros q0; cbn [fold_right fold_left] in *; [ring|]. rewrite <- IH. cbn [fold_right]. ring.
Qed.
Theorem C20_product_partial : forall hc cf n ops rs ht k qs d, 0 < block_size cf -> hcfg_ok hc ->
  nreaches hc cf n ops rs ht -> key_ok k -> applied products k ops rs qs ->
  exists v, hashtable_get hc cf ht k d = Some v /\ (qs = [] -> v = d) /\
    (qs <> [] -> exists s, v = Simple (SVal s) /\ number s (fold_right Qmult 1%Q qs)).
Proof.
  intros hc cf n ops rs ht k qs d Hcf Hsz Hr Hk A.
  destruct (totals_get Qmult products hc cf n ops rs ht k qs d Hcf Hsz mul_total _ Hr Hk A) as [[E ->]|(q0 & qs' & s & -> & E & Ns)].
  - exists d. split; auto. split; auto. congruence.
  - exists (Simple (SVal s)). split; auto. split; [discriminate|]. intros _. exists s. split; auto. apply (number_eq _ _ _ Ns).
    clear. revert q0. induction qs' as [|x l IH]; intros q0; cbn [fold_right fold_left] in *; [ring|]. rewrite <- IH. cbn [fold_right]. ring.
Qed.
(** Every increment and product by a number is accepted (code 1), so that none is lost,
    as long as the table is not read-only. *)
Definition unconditional (op : tableop) : Prop := op = Increment false \/ op = Multiply false \/ op = Maximize false \/ op = Minimize false.
Lemma accept op m k P r m' v q : unconditional op -> only P v -> number v q ->
  none (cont m k) \/ (exists c p, only (cont m k) c /\ number c p) -> op_step op m k P r m' -> r = 1%Z.
Proof.
  intros Hop Ov Nv Hc.
  assert (Nm : forall comb, maybe false m k P r m' (num_step comb m k P r m') -> r = 1%Z).
  { intros comb [[N _]|[(_ & E & _)|(_ & _ & S)]]; [now apply only_none in Ov|discriminate|].
    destruct S as [[_ [-> _]]|[(c0 & v0 & p0 & q0 & s & _ & _ & _ & _ & _ & [-> _])|[(c0 & v0 & _ & _ & Ov' & B & _)|[B _]]]]; auto; exfalso.
    - apply B. rewrite (only_fun _ _ _ Ov' Ov). eapply number_is; eauto.
    - destruct Hc as [N|(c & p & O & Nc)]; destruct B as [B|(c1 & O1 & B)].
      + now apply several_none in B.
      + now apply only_none in O1.
      + now apply only_several in O.
      + apply B. rewrite (only_fun _ _ _ O1 O). eapply number_is; eauto. }
  assert (Ex : forall bt, maybe false m k P r m' (ext_step bt m k P r m') -> r = 1%Z).
  { intros bt [[N _]|[(_ & E & _)|(_ & _ & S)]]; [now apply only_none in Ov|discriminate|].
    destruct S as [[_ [-> _]]|[(c0 & v0 & p0 & q0 & _ & _ & _ & _ & [[_ [-> _]]|[_ [-> _]]])|[(c0 & _ & _ & [B|(v0 & Ov' & B)] & _)|[B _]]]]; auto; exfalso.
    - now apply only_several in Ov.
    - apply B. rewrite (only_fun _ _ _ Ov' Ov). eapply number_is; eauto.
    - destruct Hc as [N|(c & p & O & Nc)]; destruct B as [B|(c1 & O1 & B)].
      + now apply several_none in B.
      + now apply only_none in O1.
      + now apply only_several in O.
      + apply B. rewrite (only_fun _ _ _ O1 O). eapply number_is; eauto. }
  destruct Hop as [->|[->|[->| ->]]]; cbn [op_step]; eauto.
Qed.
Lemma holds_accept a k acc : holds a k acc -> none (cont (hm a) k) \/ (exists c p, only (cont (hm a) k) c /\ number c p).
Proof. destruct acc as [q|]; [intros (_ & s & O & N); eauto|intros [_ N]; auto]. Qed.
Lemma single_wf op k e v q : unconditional op -> key_ok k -> okval e -> only (den e) v -> number v q -> wf_nop (Comp op k e).
Proof.
  intros Hop Hk He Ov Nv. split; [now right|]. split; auto. split.
  - intros y Hy. apply Ov in Hy as ->. intros _. eauto.
  - destruct Hop as [->|[->|[->| ->]]]; auto; eapply only_several; eauto.
Qed.
Lemma op_accepted comb (is_op : tableop -> Prop) : (forall op, is_op op -> total_op comb op) -> Proper (Qeq ==> Qeq ==> Qeq) comb ->
  forall hc cf n ops rs ht k qs op e v q, 0 < block_size cf -> hcfg_ok hc -> unconditional op -> is_op op ->
  nreaches hc cf n ops rs ht -> key_ok k -> applied is_op k ops rs qs -> ht_ro ht = false ->
  okval e -> only (den e) v -> number v q ->
  exists ht', n_step hc cf ht (Comp op k e) = Some (1%Z, ht').
Proof.
  intros Hop Pc hc cf n ops rs ht k qs op e v q Hcf Hsz Un Io Hr Hk A Ro He Ov Nv.
  destruct (nreaches_sim hc cf Hcf Hsz n ops rs ht Hr) as (a & HH & S0 & L).
  pose proof (totals comb is_op k Hop Pc (proj2 (key_guard k Hk)) ops rs qs A h_init a None HH) as T.
  specialize (T (conj (fun x => x) (fun y (x : False) => x))). apply holds_accept in T.
  destruct (comp_sim hc cf Hcf Hsz ht a op k e S0) as (r & ht' & a' & -> & St & _); [left; eapply single_wf; eauto|auto|].
  exists ht'. cbn [nstep] in St. rewrite (proj2 (key_guard k Hk)) in St. destruct S0 as [[_ E] _]. rewrite <- E, Ro in St.
  destruct St as (m' & St & _). now rewrite (accept op _ _ _ _ _ _ _ Un Ov Nv T St).
Qed.
Theorem C20_accepted_partial : forall hc cf n ops rs ht k qs e v q, 0 < block_size cf -> hcfg_ok hc ->
  nreaches hc cf n ops rs ht -> key_ok k -> ht_ro ht = false -> okval e -> only (den e) v -> number v q ->
  (applied increments k ops rs qs -> exists ht', n_step hc cf ht (Comp (Increment false) k e) = Some (1%Z, ht')) /\
  (applied products k ops rs qs -> exists ht', n_step hc cf ht (Comp (Multiply false) k e) = Some (1%Z, ht')).
Proof.
  intros hc cf n ops rs ht k qs e v q Hcf Hsz Hr Hk Ro He Ov Nv. split; intros A.
  - eapply (op_accepted Qplus increments inc_total _ hc cf n ops rs ht k qs _ e v q); eauto; [now left|now exists false].
  - eapply (op_accepted Qmult products mul_total _ hc cf n ops rs ht k qs _ e v q); eauto; [right; now left|now exists false].
Qed.

(** The statement for integers alone: any sequence of them, added to one key of a new
    table, leaves the sum. *)
Definition int_val (z : Z) : val :=
  if ((-2305843009213693951 <=? z) && (z <=? 2305843009213693951))%Z then fix_word z else VNum (NReal (RInt z)).
Lemma int_val_number z : number (int_val z) (inject_Z z).
Proof.
  unfold int_val. destruct ((-2305843009213693951 <=? z) && (z <=? 2305843009213693951))%Z eqn:E.
  - apply Bool.andb_true_iff in E as [E1 E2]. apply fix_word_number; [lia|reflexivity].
  - apply n_big; [|reflexivity]. apply Bool.andb_false_iff in E. lia.
Qed.
Definition inc_ops (k : val) (zs : list Z) : list nop := map (fun z => Comp (Increment false) k (PVal (int_val z))) zs.
Lemma only_val v : only (den (PVal v)) v.
Proof. intros y. cbn. tauto. Qed.
Lemma number_okval v q : number v q -> okval (PVal v).
Proof. intros N. destruct (number_clean _ _ N) as [E C]. split; [exact E|]. cbn. now intros y ->. Qed.
Lemma inc_codes k zs : emptyp k = false -> forall a rs a' acc, hro a = false -> holds a k acc -> nhist a (inc_ops k zs) rs a' ->
  rs = repeat 1%Z (length zs) /\ applied increments k (inc_ops k zs) rs (map inject_Z zs).
Proof.
  intros Hk. induction zs as [|z zs IH]; intros a rs a' acc Ro Ha HH; inversion HH as [|? ? r a1 ? rs' ? S HH']; subst.
  - split; constructor.
  - pose proof S as S'. cbn [nstep] in S'. rewrite Hk, Ro in S'. destruct S' as (m' & S' & ->).
    assert (r = 1%Z) as -> by (eapply (accept (Increment false)); eauto using only_val, int_val_number, holds_accept; now left).
    assert (A1 : applied increments k [Comp (Increment false) k (PVal (int_val z))] [1%Z] [inject_Z z]).
    { apply (ap_op increments k (Increment false) (PVal (int_val z)) (int_val z) (inject_Z z) [] 1 [] []);
        [now exists false|apply only_val|apply int_val_number|constructor]. }
    destruct (IH (hput a m') rs' a' (fold_left (step_total Qplus) [inject_Z z] acc)) as [E A]; auto.
    { eapply (totals Qplus increments k inc_total _ Hk _ _ _ A1 a); [|exact Ha]. econstructor; [exact S|constructor]. }
    split; [now rewrite E|].
    apply (ap_op increments k (Increment false) (PVal (int_val z)) (int_val z) (inject_Z z) _ 1%Z);
      [now exists false|apply only_val|apply int_val_number|exact A].
Qed.
Lemma sum_inject zs : (fold_right Qplus 0%Q (map inject_Z zs) == inject_Z (fold_right Z.add 0%Z zs))%Q.
Proof. induction zs as [|z zs IH]; cbn [map fold_right]; [reflexivity|]. rewrite IH, inject_Z_plus. reflexivity. Qed.
Theorem C20_integers : forall hc cf n k zs, 0 < block_size cf -> hcfg_ok hc -> (n < 1610612741)%Z ->
  (N.of_nat (length zs) < 2 ^ 28)%N -> key_ok k -> zs <> [] ->
  exists ht0 ht s, make_hashtable n = Some ht0 /\ n_run hc cf ht0 (inc_ops k zs) = Some (repeat 1%Z (length zs), ht) /\
    (forall d, hashtable_get hc cf ht k d = Some (Simple (SVal s))) /\ number s (inject_Z (fold_right Z.add 0%Z zs)).
Proof.
  intros hc cf n k zs Hcf Hsz Hn Hl Hk Hz.
  assert (W : Forall wf_nop (inc_ops k zs)).
  { apply Forall_forall. intros o Ho. apply in_map_iff in Ho as (z & <- & _).
    eapply single_wf; eauto using number_okval, int_val_number, only_val. now left. }
  assert (Ll : length (inc_ops k zs) = length zs) by apply map_length.
  destruct (C54_operations_partial hc cf n (inc_ops k zs) Hcf Hsz Hn) as (ht0 & rs & ht & a & E0 & E & HH & _); [now rewrite Ll|auto|].
  destruct (inc_codes k zs (proj2 (key_guard k Hk)) h_init rs a None eq_refl (conj (fun x => x) (fun y (x : False) => x)) HH) as [-> A].
  assert (Hr : nreaches hc cf n (inc_ops k zs) (repeat 1%Z (length zs)) ht).
  { split; auto. split; [now rewrite Ll|]. split; auto. eauto. }
  destruct (C20_sum_partial hc cf n _ _ ht k _ DF Hcf Hsz Hr Hk A) as (v & Ev & _ & Hs).
  destruct Hs as (s & -> & Ns); [destruct zs; [congruence|discriminate]|].
  exists ht0, ht, s. split; auto. split; auto. split.
  - intros d. destruct (C20_sum_partial hc cf n _ _ ht k _ d Hcf Hsz Hr Hk A) as (v' & Ev' & _ & Hs').
    destruct Hs' as (s' & -> & Ns'); [destruct zs; [congruence|discriminate]|]. rewrite Ev'. f_equal.
    destruct (nreaches_sim hc cf Hcf Hsz n _ _ ht Hr) as (a' & _ & [[M _] _] & _).
    destruct (h_in_dec hc ht (hm a') M k) as [Hi|Hni]; [apply Hk| |].
    + apply in_keys in Hi as [c Hin]. rewrite (h_get_entry hc cf ht (hm a') M k c d Hin Hk) in Ev'.
      rewrite (h_get_entry hc cf ht (hm a') M k c DF Hin Hk) in Ev. congruence.
    + rewrite (h_get_absent hc cf ht (hm a') M k DF Hni Hk) in Ev. injection Ev as Es. subst s.
      apply number_is in Ns as [(w & [= <-] & E')|[? E']]; discriminate.
  - apply (number_eq _ _ _ Ns). symmetry. apply sum_inject.
Qed.

(** *** C54: maximum and minimum *)
Lemma ext_fold (f : Q -> Q -> Q) (le : Q -> Q -> Prop) : Proper (Qeq ==> Qeq ==> iff) le -> Proper (Qeq ==> Qeq ==> Qeq) f ->
  (forall q, le q q) -> (forall a b c, le a b -> le b c -> le a c) ->
  (forall q x, (f q x == q)%Q /\ le x q \/ (f q x == x)%Q /\ le q x) ->
  forall l q, exists q', In q' (q :: l) /\ (fold_left f l q == q')%Q /\ forall x, In x (q :: l) -> le x q'.
Proof.
  intros Pl Pf Rf Tr Sp.
  assert (Fe : forall l a b, (a == b)%Q -> (fold_left f l a == fold_left f l b)%Q).
  { induction l as [|x l IH]; intros a b E; cbn [fold_left]; auto. apply IH. now rewrite E. }
  induction l as [|x l IH]; intros q; cbn [fold_left].
  - exists q. split; [now left|]. split; [reflexivity|]. intros x [->|[]]. apply Rf.
  - destruct (Sp q x) as [[E L]|[E L]].
    + destruct (IH q) as (q' & I & E' & B). exists q'. split; [destruct I; [now left|right; now right]|].
      split; [now rewrite (Fe _ _ _ E)|]. intros y [<-|[<-|Hy]]; [apply B; now left| |apply B; now right].
      apply Tr with q; auto. apply B. now left.
    + destruct (IH x) as (q' & I & E' & B). exists q'. split; [now right|].
      split; [now rewrite (Fe _ _ _ E)|]. intros y [<-|Hy]; [|now apply B]. apply Tr with x; auto. apply B. now left.
Qed.
Lemma ext_get f (le : Q -> Q -> Prop) (is_op : tableop -> Prop) : Proper (Qeq ==> Qeq ==> iff) le -> Proper (Qeq ==> Qeq ==> Qeq) f ->
  (forall q, le q q) -> (forall a b c, le a b -> le b c -> le a c) ->
  (forall q x, (f q x == q)%Q /\ le x q \/ (f q x == x)%Q /\ le q x) -> (forall op, is_op op -> total_op f op) ->
  forall hc cf n ops rs ht k qs d, 0 < block_size cf -> hcfg_ok hc ->
  nreaches hc cf n ops rs ht -> key_ok k -> applied is_op k ops rs qs ->
  exists v, hashtable_get hc cf ht k d = Some v /\ (qs = [] -> v = d) /\
    (qs <> [] -> exists s q, v = Simple (SVal s) /\ number s q /\ In q qs /\ forall x, In x qs -> le x q).
Proof.
  intros Pl Pf Rf Tr Sp Hop hc cf n ops rs ht k qs d Hcf Hsz Hr Hk A.
  destruct (totals_get f is_op hc cf n ops rs ht k qs d Hcf Hsz Hop _ Hr Hk A) as [[E ->]|(q0 & qs' & s & -> & E & Ns)].
  - exists d. split; auto. split; auto. congruence.
  - exists (Simple (SVal s)). split; auto. split; [discriminate|]. intros _.
    destruct (ext_fold f le Pl Pf Rf Tr Sp qs' q0) as (q & I & Eq & B). exists s, q. split; auto. split; [|auto].
    apply (number_eq _ _ _ Ns). now symmetry.
Qed.
Theorem C54_maximum_partial : forall hc cf n ops rs ht k qs d, 0 < block_size cf -> hcfg_ok hc ->
  nreaches hc cf n ops rs ht -> key_ok k -> applied maxima k ops rs qs ->
  exists v, hashtable_get hc cf ht k d = Some v /\ (qs = [] -> v = d) /\
    (qs <> [] -> exists s q, v = Simple (SVal s) /\ number s q /\ In q qs /\ forall x, In x qs -> (x <= q)%Q).
Proof.
  apply (ext_get Qmax Qle maxima); try typeclasses eauto; [apply Qle_refl|apply Qle_trans| |exact max_total].
  intros q x. destruct (Q.max_spec q x) as [[L M]|[L M]]; [right; split; auto; now apply Qlt_le_weak|now left].
Qed.
Theorem C54_minimum_partial : forall hc cf n ops rs ht k qs d, 0 < block_size cf -> hcfg_ok hc ->
  nreaches hc cf n ops rs ht -> key_ok k -> applied minima k ops rs qs ->
  exists v, hashtable_get hc cf ht k d = Some v /\ (qs = [] -> v = d) /\
    (qs <> [] -> exists s q, v = Simple (SVal s) /\ number s q /\ In q qs /\ forall x, In x qs -> (q <= x)%Q).
Proof.
  apply (ext_get Qmin (fun x y => y <= x)%Q minima); try typeclasses eauto; [..|exact min_total].
  - intros a b E c d E'. now rewrite E, E'.
  - intros. apply Qle_refl.
  - intros a b c L1 L2. eapply Qle_trans; eauto.
  - intros q x. destruct (Q.min_spec q x) as [[L M]|[L M]]; [left; split; auto; now apply Qlt_le_weak|now right].
Qed.

(** *** C54: push *)
(** Pushing values on a key of a new table leaves the list of them, last first. *)
Definition push_ops (k : val) (vs : list val) : list nop := map (fun v => Comp Push k (PVal v)) vs.
Fixpoint val_list (vs : list val) : val := match vs with [] => VAtom 17 | v :: vs => VPair v (val_list vs) end.
Lemma push_run hc cf k : 0 < block_size cf -> hcfg_ok hc -> key_ok k -> forall vs done ht a,
  Forall (fun v => elt_ok v /\ clean v /\ sound v) vs -> nsim hc ht a -> hro a = false ->
  (n_keys ht + N.of_nat (length vs) <= 2 ^ 28)%N ->
  (done = [] /\ none (cont (hm a) k) \/ done <> [] /\ only (cont (hm a) k) (val_list done) /\ pres (hm a) k) ->
  exists ht' a', n_run hc cf ht (push_ops k vs) = Some (repeat 1%Z (length vs), ht') /\ nsim hc ht' a' /\
    (rev vs ++ done = [] /\ none (cont (hm a') k) \/ rev vs ++ done <> [] /\ only (cont (hm a') k) (val_list (rev vs ++ done)) /\ pres (hm a') k).
Proof.
  intros Hcf Hsz Hk. induction vs as [|v vs IH]; intros done ht a Hvs S0 Ro Hl Hd; cbn [push_ops map n_run length repeat].
  - exists ht, a. auto.
  - inversion Hvs as [|? ? (E1 & C1 & So) Hvs']; subst. cbn [length] in Hl.
    destruct (comp_sim hc cf Hcf Hsz ht a Push k (PVal v) S0) as (r & ht1 & a1 & -> & St & S1 & _ & L); [right|lia|].
    { split; [now right|]. split; [split; [exact E1|cbn; now intros y ->]|]. split; [cbn; now intros y ->|]. split; [exists v; apply only_val|].
      destruct Hd as [[_ N]|(_ & O & _)]; [intros B; now apply several_none in B|now apply only_several in O]. }
    cbn [nstep] in St. rewrite (proj2 (key_guard k Hk)), Ro in St. destruct St as (m' & St & ->).
    destruct St as (v' & w & Ov & [-> ->] & D). assert (v' = v) by (eapply only_fun; [exact Ov|apply only_val]). subst v'.
    destruct (store_at (hm a) k (eq w)) as [P1 P2].
    destruct (IH (v :: done) ht1 (hput a (a_store (hm a) k (eq w)))) as (ht2 & a2 & E2 & S2 & Hd2); auto; [lia|..].
    + right. split; [discriminate|]. split; [|exact P1]. cbn [hput hm].
      assert (w = val_list (v :: done)) as <-; [|intros y; rewrite P2; split; congruence].
      destruct Hd as [[-> N]|(Nd & O & _)].
      * destruct D as [[_ ->]|[(x & y & O & _)|(c & O & _)]]; auto; now apply only_none in O.
      * destruct D as [[N _]|[(x & y & O' & ->)|(c & O' & Nc & _)]].
        -- now apply only_none in O.
        -- cbn [val_list]. now rewrite (only_fun _ _ _ O' O).
        -- exfalso. rewrite (only_fun _ _ _ O' O) in Nc. destruct done; [congruence|]. cbn in Nc. now eapply Nc.
    + unfold push_ops in E2. rewrite E2. exists ht2, a2. split; auto. split; auto. cbn [rev]. now rewrite <- app_assoc.
Qed.
Theorem C54_push_partial : forall hc cf n k vs d, 0 < block_size cf -> hcfg_ok hc -> (n < 1610612741)%Z ->
  (N.of_nat (length vs) < 2 ^ 28)%N -> key_ok k -> vs <> [] -> Forall (fun v => elt_ok v /\ clean v /\ sound v) vs ->
  exists ht0 ht, make_hashtable n = Some ht0 /\ n_run hc cf ht0 (push_ops k vs) = Some (repeat 1%Z (length vs), ht) /\
    hashtable_get hc cf ht k d = Some (Simple (SVal (val_list (rev vs)))).
Proof.
  intros hc cf n k vs d Hcf Hsz Hn Hl Hk Hz Hvs.
  assert (exists ht0, make_hashtable n = Some ht0) as [ht0 E0].
  { unfold make_hashtable. destruct (n =? 0)%Z; eauto. destruct (Z.ltb_spec n 0); eauto.
    destruct (sizes_exist (Z.to_N n)) as [s ->]; eauto. lia. }
  destruct (nsim_init hc n ht0 E0) as [S0 N0].
  destruct (push_run hc cf k Hcf Hsz Hk vs [] ht0 h_init Hvs S0 eq_refl) as (ht & a & E & [[M _] _] & D).
  { lia. } { left. split; auto. intros y []. }
  exists ht0, ht. split; auto. split; auto. rewrite app_nil_r in D.
  destruct D as [[D _]|(_ & O & Hp)].
  { exfalso. apply Hz. rewrite <- (rev_involutive vs), D. reflexivity. }
  destruct (h_get_spec hc cf Hcf ht (hm a) M k d Hk) as (v & -> & G1 & _). destruct (G1 Hp) as (s' & -> & Rs).
  do 2 f_equal. apply represents_canonical in Rs. destruct s' as [v|c l]; cbn [canonical] in Rs.
  - f_equal. destruct Rs as [[_ N]|[_ O']]; [exfalso; now apply (N (val_list (rev vs))), O|]. eapply only_fun; eauto.
  - exfalso. destruct Rs as (L & _ & Nd & Rs). destruct l as [|x [|y l]]; cbn in L; try lia.
    inversion Nd as [|? ? Nx _]; subst. apply Nx. left.
    transitivity (val_list (rev vs)); [apply O, Rs; cbn; auto|symmetry; apply O, Rs; cbn; auto].
Qed.

(** *** C54: one operation on several keys *)
Definition agree (m1 m2 : amap) (k : val) : Prop := (pres m1 k <-> pres m2 k) /\ forall y, cont m1 k y <-> cont m2 k y.
Lemma agree_refl m k : agree m m k. Proof. split; [|intros y]; reflexivity. Qed.
Lemma agree_trans m1 m2 m3 k : agree m1 m2 k -> agree m2 m3 k -> agree m1 m3 k.
Proof. intros [A B] [C D]. split; [now rewrite A|]. intros y. now rewrite B. Qed.
Lemma agree_store m0 m k P : agree (a_store m0 k P) (a_store m k P) k.
Proof. split; [|intros y]; cbn; tauto. Qed.
Lemma op_step_local op m0 m k (P : val -> Prop) c m1 : agree m0 m k -> op_step op m k P c m1 ->
  exists m2, op_step op m0 k P c m2 /\ agree m2 m1 k.
Proof.
  intros [Hp Hc].
  assert (No : none (cont m k) <-> none (cont m0 k)) by (split; intros N y Hy; apply (N y), Hc, Hy).
  assert (On : forall x, only (cont m k) x <-> only (cont m0 k) x) by (intros x; split; intros O y; now rewrite <- (O y), Hc).
  assert (Se : several (cont m k) <-> several (cont m0 k)).
  { split; intros (x & y & A & B & N); exists x, y; (split; [now apply Hc|split; [now apply Hc|auto]]). }
  assert (Nn : no_number (cont m k) <-> no_number (cont m0 k)).
  { unfold no_number. rewrite Se. split; (intros [A|(x & A & B)]; [now left|right; exists x; split; auto; now apply On]). }
  assert (Ii : initial (cont m k) <-> initial (cont m0 k)) by (unfold initial; now rewrite No, !On).
  assert (Kp : forall r, keep r m c m1 -> keep r m0 c m0 /\ agree m0 m1 k).
  { intros r [-> ->]. split; [split; reflexivity|split; auto]. }
  assert (St : forall P', store m k P' c m1 -> store m0 k P' c (a_store m0 k P') /\ agree (a_store m0 k P') m1 k).
  { intros P' [-> ->]. split; [split; reflexivity|apply agree_store]. }
  assert (Nm : forall comb, num_step comb m k P c m1 -> exists m2, num_step comb m0 k P c m2 /\ agree m2 m1 k).
  { intros comb [[A E]|[(x & v & p & q & s & A & B & C & D & F & E)|[(x & v & A & B & C & D & E)|[A E]]]].
    - apply St in E as [E1 E2]. eexists. split; [|exact E2]. left. split; [now apply No|exact E1].
    - apply St in E as [E1 E2]. eexists. split; [|exact E2]. right; left. exists x, v, p, q, s. split; [now apply On|]. tauto.
    - apply Kp in E as [E1 E2]. eexists. split; [|exact E2]. right; right; left. exists x, v. split; [now apply On|]. tauto.
    - apply Kp in E as [E1 E2]. eexists. split; [|exact E2]. right; right; right. split; [now apply Nn|exact E1]. }
  assert (Ex : forall bt, ext_step bt m k P c m1 -> exists m2, ext_step bt m0 k P c m2 /\ agree m2 m1 k).
  { intros bt [[A E]|[(x & v & p & q & A & B & C & D & [[F E]|[F E]])|[(x & A & B & C & E)|[A E]]]].
    - apply St in E as [E1 E2]. eexists. split; [|exact E2]. left. split; [now apply No|exact E1].
    - apply St in E as [E1 E2]. eexists. split; [|exact E2]. right; left. exists x, v, p, q. split; [now apply On|].
      split; auto.
    - apply Kp in E as [E1 E2]. eexists. split; [|exact E2]. right; left. exists x, v, p, q. split; [now apply On|].
      split; auto.
    - apply Kp in E as [E1 E2]. eexists. split; [|exact E2]. right; right; left. exists x. split; [now apply On|]. tauto.
    - apply Kp in E as [E1 E2]. eexists. split; [|exact E2]. right; right; right. split; [now apply Nn|exact E1]. }
  assert (Mb : forall ifp (S : amap -> amap -> Prop), (S m m1 -> exists m2, S m0 m2 /\ agree m2 m1 k) ->
    maybe ifp m k P c m1 (S m m1) -> exists m2, maybe ifp m0 k P c m2 (S m0 m2) /\ agree m2 m1 k).
  { intros ifp S HS [[A E]|[(A & B & C & E)|(A & B & E)]].
    - apply Kp in E as [E1 E2]. eexists. split; [|exact E2]. now left.
    - apply Kp in E as [E1 E2]. eexists. split; [|exact E2]. right; left. split; auto. split; auto. split; auto. now rewrite Hp.
    - apply HS in E as (m2 & E1 & E2). exists m2. split; auto. right; right. split; auto. split; auto. intros F. now apply Hp, B. }
  destruct op; cbn [op_step].
  - apply (Mb ifp (fun m m1 => num_step Qplus m k P c m1)), Nm.
  - apply (Mb ifp (fun m m1 => num_step Qmult m k P c m1)), Nm.
  - apply (Mb ifp (fun m m1 => ext_step _ m k P c m1)), Ex.
  - apply (Mb ifp (fun m m1 => ext_step _ m k P c m1)), Ex.
  - rewrite No. intros [[A E]|[A E]]; [apply St in E as [E1 E2]|apply Kp in E as [E1 E2]]; eexists; (split; [|exact E2]); [left|right]; auto.
  - rewrite Ii. intros [[A E]|[A E]]; [apply St in E as [E1 E2]|apply Kp in E as [E1 E2]]; eexists; (split; [|exact E2]); [left|right]; auto.
  - rewrite <- Hp. intros [[A E]|[A E]]; [apply St in E as [E1 E2]|apply Kp in E as [E1 E2]]; eexists; (split; [|exact E2]); [left|right]; auto.
  - rewrite <- Hp. intros [[A E]|[A E]]; [apply St in E as [E1 E2]|apply Kp in E as [E1 E2]]; eexists; (split; [|exact E2]); [left|right]; auto.
  - intros (v & w & A & E & D). apply St in E as [E1 E2]. eexists. split; [|exact E2]. exists v, w. split; auto. split; auto.
    destruct D as [[B D]|[(x & y & B & D)|(x & B & D)]].
    + left. split; auto. now apply No.
    + right; left. exists x, y. split; auto. now apply On.
    + right; right. exists x. split; auto. now apply On.
Qed.
Lemma do_op_sim hc cf : 0 < block_size cf -> hcfg_ok hc -> forall ht a op k e v, nsim hc ht a -> hro a = false -> key_ok k ->
  wf_nop (Comp op k e) -> run cf e = Some v ->
  exists r ht' m', do_hashtable_op hc cf ht op k v = Some (r, ht') /\ op_step op (hm a) k (den e) r m' /\
    nsim hc ht' (hput a m') /\ (n_keys ht' <= n_keys ht + 1)%N.
Proof.
  intros Hcf Hsz ht a op k e v [HS Hs] Er Hk (_ & He & So & Hop) Ev. pose proof HS as [M HRo].
  destruct (okval_run cf e Hcf He) as (v' & Ev' & V & T). rewrite Ev in Ev'. injection Ev' as <-.
  assert (Ve : lemptyp v = true <-> none (den e)) by exact (vgood_empty _ _ V). rewrite Er in HRo.
  destruct (op_core hc cf Hsz ht (hm a) M op k v (fun r m' => op_step op (hm a) k (den e) r m') Hk T HRo) as
    (r & ht1 & m1 & E & S & M1 & B1 & F1 & L1).
  - intros Ee Ig. destruct op; try discriminate Ig; (left; split; [now apply Ve|split; reflexivity]).
  - intros Nk Hn. assert (Np : ~ pres (hm a) k) by now rewrite (r_pres _ _ (ho_R _ _ _ M)).
    destruct op; try discriminate Nk; cbn [needs_key] in Nk; subst; cbn [op_step].
    1-4: destruct (lemptyp v) eqn:El; [left; split; [now apply Ve|split; reflexivity]|].
    1-4: right; left; split; [intros N; apply Ve in N; congruence|]; split; [reflexivity|]; split; [exact Np|split; reflexivity].
    1-2: right; split; [exact Np|split; reflexivity].
  - intros cur Ee Hc. apply (op_value_spec hc cf ht (hm a) M Hs k cur v (den e)); auto.
    + destruct Hc as [Hc|(_ & Hc)]; auto.
    + apply He.
    + intros Nk. destruct Hc as [Hc|(Hc & _)]; auto. congruence.
    + destruct op; auto. destruct Hop.
  - exists r, ht1, m1. split; auto. split; auto. split; auto.
    split; [split; [exact M1|cbn; congruence]|]. cbn. eapply op_step_sound; eauto.
Qed.
Lemma iter_sim hc cf : 0 < block_size cf -> hcfg_ok hc -> forall op e v, run cf e = Some v ->
  forall ks ht a m added, nsim hc ht a -> hro a = false -> NoDup ks -> Forall (fun k => key_ok k /\ wf_nop (Comp op k e)) ks ->
  (forall k, In k ks -> agree m (hm a) k) -> (0 <= added)%Z ->
  exists r ht' m' ks1 ks2 cs, iterkeys hc cf ht op added ks v = Some (r, ht') /\ nsim hc ht' (hput a m') /\
    ks = ks1 ++ ks2 /\ Forall2 (fun k c => exists m1, op_step op m k (den e) c m1 /\ agree m1 m' k) ks1 cs /\
    (forall k, ~ In k ks1 -> agree (hm a) m' k) /\ (ks2 <> [] -> (r < 0)%Z) /\
    r = hd 0%Z (filter (fun c => negb (c =? 0)%Z) (added :: cs)) /\ (n_keys ht' <= n_keys ht + N.of_nat (length ks))%N.
Proof.
  intros Hcf Hsz op e v Ev. induction ks as [|k ks IH]; intros ht a m added HS Ro Nd Hw Ha Hadd; cbn [iterkeys].
  - exists added, ht, (hm a), [], [], []. split; auto. split; [now destruct a|]. split; auto. split; [constructor|].
    split; [intros k _; apply agree_refl|]. split; [congruence|]. split; [|lia].
    cbn [filter]. destruct (Z.eqb_spec added 0); cbn; auto.
  - inversion Nd as [|? ? Nk Nd']; subst. inversion Hw as [|? ? [Hk Wk] Hw']; subst.
    destruct (do_op_sim hc cf Hcf Hsz ht a op k e v HS Ro Hk Wk Ev) as (c & ht1 & m1 & -> & St & S1 & L1).
    assert (Ot : forall k', k' <> k -> agree (hm a) m1 k').
    { intros k' N. destruct (op_step_shape _ _ _ _ _ _ St) as [->|[P' ->]]; [apply agree_refl|]. split; [|intros y]; cbn; intuition congruence. }
    destruct (op_step_local op m (hm a) k (den e) c m1) as (m2 & St2 & A2); [apply Ha; now left|auto|].
    cbv zeta. set (added' := if (added =? 0)%Z then c else added).
    assert (Fl : forall cs, hd 0%Z (filter (fun c => negb (c =? 0)%Z) (added :: c :: cs)) =
      hd 0%Z (filter (fun c => negb (c =? 0)%Z) (added' :: cs))).
    { intros cs. unfold added'. cbn [filter]. destruct (Z.eqb_spec added 0); cbn [negb hd]; auto.
      destruct (Z.eqb_spec added 0); [lia|]. reflexivity. }
    destruct (Z.ltb_spec added' 0) as [Neg|Pos].
    + exists added', ht1, m1, [k], ks, [c]. split; [reflexivity|]. split; auto. split; auto. split; [constructor; eauto; constructor|].
      split; [intros k' N; apply Ot; intros ->; apply N; now left|]. split; auto. split; [|cbn [length]; lia].
      rewrite Fl. cbn [filter]. destruct (Z.eqb_spec added' 0); [lia|reflexivity].
    + destruct (IH ht1 (hput a m1) m added') as (r & ht' & m' & ks1 & ks2 & cs & E & S' & Ek & F & O & N & Er & L); auto.
      { intros k' Hk'. eapply agree_trans; [apply Ha; now right|]. apply Ot. intros ->. tauto. }
      exists r, ht', m', (k :: ks1), ks2, (c :: cs). split; [exact E|]. split; [exact S'|]. split; [now rewrite Ek|].
      split; [|split; [|split; [auto|split; [now rewrite Fl|cbn [length]; lia]]]].
      * constructor; auto. exists m2. split; auto. eapply agree_trans; [exact A2|]. apply O.
        intros B. apply Nk. rewrite Ek. apply in_or_app. now left.
      * intros k' N'. eapply agree_trans; [apply Ot; intros ->; apply N'; now left|]. apply O. intros B. apply N'. now right.
Qed.
(** The operation is done to each key as if it were the only one, up to an error that the
    call reports; the result is the first code that is not 0. *)
Theorem C54_iterkeys_partial : forall hc cf n ops rs ht op ks e v, 0 < block_size cf -> hcfg_ok hc ->
  nreaches hc cf n ops rs ht -> ht_ro ht = false -> NoDup ks ->
  Forall (fun k => key_ok k /\ wf_nop (Comp op k e)) ks -> run cf e = Some v -> (N.of_nat (length ks) < 2 ^ 28)%N ->
  exists a r ht' m' ks1 ks2 cs, nhist h_init ops rs a /\ hashtable_iterkeys hc cf ht op ks v = Some (r, ht') /\
    ks = ks1 ++ ks2 /\ (ks2 <> [] -> (r < 0)%Z) /\ r = hd 0%Z (filter (fun c => negb (c =? 0)%Z) cs) /\
    Forall2 (fun k c => exists m1, op_step op (hm a) k (den e) c m1 /\ agree m1 m' k) ks1 cs /\
    (forall k, ~ In k ks1 -> agree (hm a) m' k) /\
    forall k d, key_ok k -> exists w, hashtable_get hc cf ht' k d = Some w /\
      (pres m' k -> exists s, w = Simple s /\ canonical s (cont m' k)) /\ (~ pres m' k -> w = d).
Proof.
  intros hc cf n ops rs ht op ks e v Hcf Hsz Hr Ro Nd Hw Ev Hl.
  destruct (nreaches_sim hc cf Hcf Hsz n ops rs ht Hr) as (a & HH & HS & L).
  assert (Ra : hro a = false) by (destruct HS as [[_ E] _]; congruence).
  destruct (iter_sim hc cf Hcf Hsz op e v Ev ks ht a (hm a) 0 HS Ra Nd Hw) as
    (r & ht1 & m' & ks1 & ks2 & cs & E & S1 & Ek & F & O & N & Er & L1); [intros; apply agree_refl|lia|].
  assert (Fin : exists ht', hashtable_iterkeys hc cf ht op ks v = Some (r, ht') /\ ht_ok hc ht' m').
  { unfold hashtable_iterkeys. rewrite E. destruct S1 as [[M1 _] _]. destruct (Z.ltb_spec 0 r).
    - destruct (auto_resize_spec hc ht1 m' Hsz M1) as (ht2 & -> & A1 & _); [lia|]. eauto.
    - eauto. }
  destruct Fin as (ht' & E' & M'). exists a, r, ht', m', ks1, ks2, cs. split; auto. split; auto. split; auto. split; auto. split; auto. split; auto. split; auto.
  intros k d Hk. destruct (h_get_spec hc cf Hcf ht' m' M' k d Hk) as (w & Ew & G1 & G2).
  exists w. split; auto. split; auto. intros Hp. destruct (G1 Hp) as (s & -> & Rs). exists s. split; auto. now apply represents_canonical.
Qed.

(** ** Findings *)
(** A choice of numbers as the operand: a key holding the fixnum 10, incremented by {1 2},
    holds 12 and not 13 (every sum starts from the value read before the loop). *)
Theorem C20_choice_refuted : exists hc cf n ops rs ht k e v1 v2 c p q1 q2 ht' s d, nreaches hc cf n ops rs ht /\ key_ok k /\ okval e /\
  (forall y, den e y <-> y = v1 \/ y = v2) /\ v1 <> v2 /\ number v1 q1 /\ number v2 q2 /\
  hashtable_get hc cf ht k d = Some (Simple (SVal c)) /\ number c p /\
  n_step hc cf ht (Comp (Increment false) k e) = Some (1%Z, ht') /\
  hashtable_get hc cf ht' k d = Some (Simple (SVal s)) /\ ~ number s (p + q1 + q2).
Proof.
  assert (K : forall n, key_ok (fx n)) by (intros n; split; [apply fx_elt|apply fx_clean]).
  assert (N : forall n, (n < 1000)%N -> number (fx n) (inject_Z (Z.of_N n))).
  { intros n L. apply (n_fix (Z.of_N n)); [lia| |reflexivity]. rewrite Z.mod_small by lia. lia. }
  exists h0, cf1, (-2)%Z, [Comp (Increment false) (fx 5) (PVal (fx 10))]. eexists _, _, (fx 5), (PAdd false (PVal (fx 1)) (PVal (fx 2))), (fx 1), (fx 2), (fx 10).
  exists (inject_Z 10), (inject_Z 1), (inject_Z 2). eexists _, (fx 12), DF.
  assert (W : forall n, (n < 1000)%N -> wf_nop (Comp (Increment false) (fx 5) (PVal (fx n)))).
  { intros n L. eapply single_wf; [now left|apply K|eapply number_okval, N, L|apply only_val|apply N, L]. }
  split; [split; [lia|split; [reflexivity|split; [constructor; [now apply W|constructor]|eexists; split; [reflexivity|vm_compute; reflexivity]]]]|].
  split; [apply K|]. split.
  { split; [|cbn; intros y [->| ->]; apply fx_clean]. split; apply fx_elt. }
  split; [intros y; reflexivity|]. split; [discriminate|]. split; [now apply (N 1%N)|]. split; [now apply (N 2%N)|].
  split; [vm_compute; reflexivity|].
  split; [now apply (N 10%N)|]. split; [vm_compute; reflexivity|]. split; [vm_compute; reflexivity|].
  intros H. pose proof (number_fun _ _ _ H (N 12%N eq_refl)) as E. vm_compute in E. discriminate.
Qed.
(** The same with a big integer in the key: the second step reads an object whose
    reference was dropped. *)
Theorem C20_choice_freed_refuted : exists hc cf n ops rs ht k e c q d, nreaches hc cf n ops rs ht /\ key_ok k /\ okval e /\
  (forall y, den e y -> exists q, number y q) /\ hashtable_get hc cf ht k d = Some (Simple (SVal c)) /\ number c q /\
  n_step hc cf ht (Comp (Increment false) k e) = None.
Proof.
  exists h0, cf1, (-2)%Z, [Comp (Increment false) (fx 5) (PVal (int_val (2 ^ 70)))].
  eexists _, _, (fx 5), (PAdd false (PVal (fx 1)) (PVal (fx 2))), (int_val (2 ^ 70)), _, DF.
  split.
  { split; [lia|]. split; [reflexivity|]. split; [constructor; [|constructor]|eexists; split; [reflexivity|vm_compute; reflexivity]].
    eapply single_wf; [now left|split; [apply fx_elt|apply fx_clean]|eapply number_okval, int_val_number|apply only_val|apply int_val_number]. }
  split; [split; [apply fx_elt|apply fx_clean]|]. split.
  { split; [|cbn; intros y [->| ->]; apply fx_clean]. split; apply fx_elt. }
  split.
  { intros y [->| ->].
    - exists (inject_Z 1). now apply (n_fix 1).
    - exists (inject_Z 2). now apply (n_fix 2). }
  split; [vm_compute; reflexivity|].
  split; [apply int_val_number|]. vm_compute. reflexivity.
Qed.
(** kno_hashtable_iterkeys reports success although the operation failed on a key. *)
Theorem C54_iterkeys_refuted : exists hc cf n ops rs ht k1 k2 op e v r ht' c2 m d, nreaches hc cf n ops rs ht /\ key_ok k1 /\ key_ok k2 /\ wf_nop (Comp op k1 e) /\
  run cf e = Some v /\ hashtable_iterkeys hc cf ht op [k1; k2] v = Some (r, ht') /\ (0 < r)%Z /\
  do_hashtable_op hc cf ht op k2 v = Some (c2, m) /\ (c2 < 0)%Z /\ hashtable_get hc cf ht' k2 d = hashtable_get hc cf ht k2 d.
Proof.
  exists h0, cf1, (-2)%Z, [Comp (Increment false) (fx 1) (PVal (fx 10)); Plain (HStore (fx 2) (PVal (VStr [98]%N)))].
  eexists _, _, (fx 1), (fx 2), (Increment false), (PVal (fx 3)), _, _, _, _, _, DF.
  assert (K : forall n, key_ok (fx n)) by (intros n; split; [apply fx_elt|apply fx_clean]).
  split.
  { split; [lia|]. split; [reflexivity|]. split; [constructor; [|constructor; [|constructor]]|eexists; split; [reflexivity|vm_compute; reflexivity]].
    - eapply single_wf; [now left|apply K| |apply only_val|now apply (n_fix 10)]. split; [apply fx_elt|cbn; intros y ->; apply fx_clean].
    - split; [split; [right; apply K|]|].
      + split; [repeat split; discriminate|]. cbn. intros y ->. repeat split; discriminate.
      + cbn. intros y -> [(w & E & _)|[n E]]; discriminate. }
  split; [apply K|]. split; [apply K|]. split.
  { eapply single_wf; [now left|apply K| |apply only_val|now apply (n_fix 3)]. split; [apply fx_elt|cbn; intros y ->; apply fx_clean]. }
  split; [reflexivity|].
  split; [vm_compute; reflexivity|].
  split; [lia|]. split; [vm_compute; reflexivity|]. split; [lia|]. vm_compute. reflexivity.
Qed.
(** "default" on a key without values stores even the empty choice, so the key becomes
    present; and a key present with no values is given a value although "if present"
    operations and "replace" count it as there. *)
Example ex_default_empty : exists ht, n_run h0 cf1 {| buckets := []; n_keys := 0; ht_ro := false |}
    [Comp Default (fx 1) PEmpty; Comp (Increment true) (fx 1) (PVal (fx 5)); Comp (Increment true) (fx 2) (PVal (fx 5))]
  = Some ([1; 1; 0]%Z, ht) /\ n_keys ht = 1%N /\ hashtable_get h0 cf1 ht (fx 1) DF = Some (Simple (SVal (fx 5))).
Proof. eexists. split; [vm_compute; reflexivity|]. vm_compute. auto. Qed.

(** ** A concrete history: increments that cross the fixnum range and come back, products,
    extremes, a refused phase, other keys and a resize in between. *)
Definition nops_ex : list nop :=
  [Comp (Increment false) (fx 1) (PVal (int_val 2305843009213693950)); Comp (Multiply false) (fx 2) (PVal (int_val (-3)));
   Comp (Increment false) (fx 1) (PVal (int_val 2305843009213693950)); Plain (HStore (fx 9) (PVal (VStr [98]%N)));
   Comp (Multiply false) (fx 2) (PVal (int_val 5000000000000000000)); Comp (Maximize false) (fx 3) (PVal (int_val 4));
   Plain (HReadonly true); Comp (Increment false) (fx 1) (PVal (int_val 7)); Plain (HReadonly false); Plain (HResize 17);
   Comp (Maximize true) (fx 3) (PVal (int_val (2 ^ 80))); Comp (Maximize true) (fx 3) (PVal (int_val 8));
   Comp (Increment true) (fx 1) (PVal (int_val (- 2 ^ 61))); Comp (Increment false) (fx 9) (PVal (int_val 1));
   Comp (Minimize false) (fx 4) (PVal (int_val 9)); Comp (Minimize false) (fx 4) (PVal (int_val (-9)));
   Comp Default (fx 9) (PVal (fx 1)); Comp Replace (fx 7) (PVal (fx 1)); Comp Init (fx 6) (PVal (fx 6))].
Definition nrs_ex : list Z := [1; 1; 1; 1; 1; 1; 0; -1; 1; 17; 1; 1; 1; -1; 1; 1; 0; 0; 1]%Z.
Example ex_nops_wf : Forall wf_nop nops_ex.
Proof.
  assert (K : forall n, okkey (fx n)) by (intros n; right; split; [apply fx_elt|apply fx_clean]).
  assert (V : forall z, okval (PVal (int_val z))) by (intros z; eapply number_okval, int_val_number).
  assert (Ss : forall z y, den (PVal (int_val z)) y -> sound y) by (cbn; intros z y -> _; eexists; apply int_val_number).
  assert (F : forall n, (n < 10)%N -> fx n = int_val (Z.of_N n)).
  { intros n L. unfold int_val, fix_word, fx. replace (_ && _)%bool with true by (symmetry; apply Bool.andb_true_iff; lia).
    f_equal. rewrite Z.mod_small by lia. lia. }
  assert (Sv : forall z, ~ several (den (PVal (int_val z)))) by (intros z; eapply only_several, only_val).
  unfold nops_ex. rewrite (F 6%N) by lia. rewrite <- (F 6%N) at 1 by lia.
  repeat (apply Forall_cons; [cbn [wf_nop wf_hop]|]).
  all: try apply Forall_nil; try (split; [exact I|exact I]); try (split; [reflexivity|exact I]).
  all: try (split; [apply K|split; [apply V|split; [apply Ss|first [apply Sv|exact I]]]]).
  - split; [split; [apply K|]|].
    + split; [repeat split; discriminate|]. cbn. intros y ->. repeat split; discriminate.
    + cbn. intros y -> [(w & E & _)|[n E]]; discriminate.
  - split; [apply K|]. rewrite (F 1%N) by lia. split; [apply V|]. split; [apply Ss|exact I].
  - split; [apply K|]. rewrite (F 1%N) by lia. split; [apply V|]. split; [apply Ss|exact I].
Qed.
Example ex_nreaches : exists ht, nreaches h0 cf1 (-2) nops_ex nrs_ex ht /\ ht_ro ht = false /\
  hashtable_get h0 cf1 ht (fx 1) DF = Some (Simple (SVal (int_val (2 * 2305843009213693950 - 2 ^ 61)))) /\
  hashtable_get h0 cf1 ht (fx 2) DF = Some (Simple (SVal (VNum (NReal (RInt (-15000000000000000000)))))) /\
  hashtable_get h0 cf1 ht (fx 3) DF = Some (Simple (SVal (int_val (2 ^ 80)))) /\
  hashtable_get h0 cf1 ht (fx 4) DF = Some (Simple (SVal (int_val (-9)))).
Proof.
  eexists. split.
  { split; [lia|]. split; [reflexivity|]. split; [exact ex_nops_wf|]. eexists. split; [reflexivity|]. vm_compute. reflexivity. }
  vm_compute. auto 8.
Qed.
Ltac applied_case := first [apply ap_nil |
  apply ap_other; [cbn [ntouched htouched]; first [discriminate|tauto]|] |
  eapply ap_op; [eexists; reflexivity|apply only_val|apply int_val_number|]].
Example ex_applied : exists qs, applied increments (fx 1) nops_ex nrs_ex qs /\ length qs = 3 /\
  exists qs', applied products (fx 2) nops_ex nrs_ex qs' /\ length qs' = 2 /\
  exists qs'', applied maxima (fx 3) nops_ex nrs_ex qs'' /\ length qs'' = 3 /\
  exists qs3, applied minima (fx 4) nops_ex nrs_ex qs3.
Proof.
  eexists. split; [repeat applied_case|]. split; [reflexivity|]. eexists. split; [repeat applied_case|]. split; [reflexivity|].
  eexists. split; [repeat applied_case|]. split; [reflexivity|]. eexists. repeat applied_case.
Qed.
Example ex_integers : exists ht, n_run h0 cf1 {| buckets := []; n_keys := 0; ht_ro := false |}
    (inc_ops (fx 1) [2 ^ 61 - 1; 2 ^ 61 - 1; - 2 ^ 70; 12; 2 ^ 70]%Z) = Some ([1; 1; 1; 1; 1]%Z, ht) /\
  hashtable_get h0 cf1 ht (fx 1) DF = Some (Simple (SVal (int_val (2 ^ 62 + 10)))).
Proof. eexists. split; [vm_compute; reflexivity|]. vm_compute. auto. Qed.
Example ex_push : exists ht, n_run h0 cf1 {| buckets := []; n_keys := 0; ht_ro := false |}
    (push_ops (fx 1) [fx 4; VStr [98]%N; fx 6]) = Some ([1; 1; 1]%Z, ht) /\
  hashtable_get h0 cf1 ht (fx 1) DF = Some (Simple (SVal (VPair (fx 6) (VPair (VStr [98]%N) (VPair (fx 4) (VAtom 17)))))).
Proof. eexists. split; [vm_compute; reflexivity|]. vm_compute. auto. Qed.
Example ex_iterkeys : exists ht r ht', n_run h0 cf1 {| buckets := []; n_keys := 0; ht_ro := false |} nops_ex = Some (nrs_ex, ht) /\
  hashtable_iterkeys h0 cf1 ht (Increment true) [fx 8; fx 3; fx 4] (Simple (SVal (fx 5))) = Some (r, ht') /\ r = 1%Z /\
  hashtable_get h0 cf1 ht' (fx 3) DF = Some (Simple (SVal (int_val (2 ^ 80 + 5)))) /\
  hashtable_get h0 cf1 ht' (fx 8) DF = Some DF.
Proof. eexists _, _, _. split; [vm_compute; reflexivity|]. split; [vm_compute; reflexivity|]. vm_compute. auto. Qed.

Print Assumptions C20_sum_partial.
Print Assumptions C20_product_partial.
Print Assumptions C20_accepted_partial.
Print Assumptions C20_integers.
Print Assumptions C20_choice_refuted.
Print Assumptions C20_choice_freed_refuted.
Print Assumptions C54_operations_partial.
Print Assumptions C54_other_keys_partial.
Print Assumptions C54_maximum_partial.
Print Assumptions C54_minimum_partial.
Print Assumptions C54_push_partial.
Print Assumptions C54_iterkeys_partial.
Print Assumptions C54_iterkeys_refuted.

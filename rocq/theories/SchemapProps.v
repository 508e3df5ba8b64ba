(** * C15 (and C19 for schemaps): a table with a fixed schema is a map on its slots.

    The specification is [sstep] on a function from slots to sets of values; values are
    built by the programs of ChoicesProps. *)
From Coq Require Import Lia Permutation Sorting.Sorted List.
From Verif Require Import ValueModel ValueProofs SortModel SortProofs ChoicesModel SlotmapModel SchemapModel
  ChoicesProofs ChoicesProofs2 ChoicesProofs3 ChoicesProps TableProofs SlotmapProofs SlotmapProps.
Import ListNotations.
Local Open Scope nat_scope.

(** ** Finding a slot *)
Definition ascending (s : list N) : Prop := StronglySorted N.lt s.
Lemma ascending_nth s : ascending s -> forall i j x y, i < j -> nth_error s i = Some x -> nth_error s j = Some y -> (x < y)%N.
Proof.
  induction 1 as [|a s S IH F]; intros i j x y L Ex Ey; [now destruct i|].
  destruct j as [|j]; [lia|]. cbn in Ey. destruct i as [|i]; cbn in Ex.
  - injection Ex as <-. rewrite Forall_forall in F. apply F. eapply nth_error_In; eauto.
  - apply (IH i j x y); auto; lia.
Qed.
Lemma ascending_nodup s : ascending s -> NoDup s.
Proof.
  induction 1 as [|a s S IH F]; constructor; auto. intros Hin. rewrite Forall_forall in F. apply F in Hin. lia.
Qed.
Definition found (key : N) (s : list N) (r : option nat) : Prop :=
  match r with Some i => nth_error s i = Some key | None => ~ In key s end.
Lemma nth_some {A} (s : list A) i : i < length s -> exists x, nth_error s i = Some x.
Proof. intros L. destruct (nth_error s i) eqn:E; eauto. apply nth_error_None in E. lia. Qed.
Lemma slot_loop_spec key s : ascending s -> forall fuel b t m,
  (0 <= b)%Z -> (b - 1 <= t <= Z.of_nat (length s))%Z -> (t - b <= Z.of_nat fuel)%Z ->
  m = (b + Z.quot (t - b) 2)%Z ->
  (forall i x, nth_error s i = Some x -> (Z.of_nat i < b)%Z -> (x < key)%N) ->
  (forall i x, nth_error s i = Some x -> (t < Z.of_nat i)%Z -> (key < x)%N) ->
  exists r, slot_loop fuel key s b t m = Some r /\ found key s r.
Proof.
  intros HS. induction fuel as [|fuel IH]; intros b t m Hb Ht Hf Hm Lo Hi; cbn [slot_loop];
    destruct (Z.ltb_spec b t) as [Lt|Ge]; try (exfalso; lia).
  - assert (Em : m = b) by (subst m; destruct (Z.eq_dec t b) as [->|]; [rewrite Z.sub_diag; cbn; lia|replace t with (b - 1)%Z by lia; replace (b - 1 - b)%Z with (-1)%Z by lia; cbn; lia]).
    clear Hm. subst m.
    destruct (Z.ltb_spec b (Z.of_nat (length s))) as [L|L].
    + destruct (Z.ltb_spec b 0); [lia|]. destruct (nth_some s (Z.to_nat b)) as [x Ex]; [lia|]. rewrite Ex.
      eexists. split; [reflexivity|]. destruct (N.eqb_spec key x) as [->|Ne]; cbn [found]; [exact Ex|].
      intros Hin. apply In_nth_error in Hin as [i Ei].
      destruct (Z.lt_trichotomy (Z.of_nat i) b) as [Hc|[Hc|Hc]].
      * specialize (Lo _ _ Ei Hc). lia.
      * replace i with (Z.to_nat b) in Ei by lia. congruence.
      * specialize (Hi _ _ Ei ltac:(lia)). lia.
    + eexists. split; [reflexivity|]. cbn [found]. intros Hin. apply In_nth_error in Hin as [i Ei].
      assert (i < length s) by (apply nth_error_Some; congruence). specialize (Lo _ _ Ei ltac:(lia)). lia.
  - assert (Bm : (b <= m < t)%Z).
    { subst m. rewrite Z.quot_div_nonneg by lia. pose proof (Z.div_pos (t - b) 2). pose proof (Z.div_lt (t - b) 2). lia. }
    destruct (Z.ltb_spec m 0); [lia|]. destruct (nth_some s (Z.to_nat m)) as [x Ex]; [lia|]. rewrite Ex.
    destruct (N.eqb_spec key x) as [->|Ne].
    { eexists. split; [reflexivity|]. exact Ex. }
    destruct (N.ltb_spec key x) as [Lx|Gx].
    + apply IH; auto; try lia. intros i y Ey Hy.
      destruct (Nat.eq_dec i (Z.to_nat m)) as [->|Hne]; [congruence|].
      assert (x < y)%N by (apply (ascending_nth s HS (Z.to_nat m) i); auto; lia). lia.
    + apply IH; auto; try lia. intros i y Ey Hy.
      destruct (Nat.eq_dec i (Z.to_nat m)) as [->|Hne]; [assert (x = y) by congruence; lia|].
      assert (y < x)%N by (apply (ascending_nth s HS i (Z.to_nat m)); auto; lia). lia.
  - assert (Em : m = b) by (subst m; destruct (Z.eq_dec t b) as [->|]; [rewrite Z.sub_diag; cbn; lia|replace t with (b - 1)%Z by lia; replace (b - 1 - b)%Z with (-1)%Z by lia; cbn; lia]).
    clear Hm. subst m.
    destruct (Z.ltb_spec b (Z.of_nat (length s))) as [L|L].
    + destruct (Z.ltb_spec b 0); [lia|]. destruct (nth_some s (Z.to_nat b)) as [x Ex]; [lia|]. rewrite Ex.
      eexists. split; [reflexivity|]. destruct (N.eqb_spec key x) as [->|Ne]; cbn [found]; [exact Ex|].
      intros Hin. apply In_nth_error in Hin as [i Ei].
      destruct (Z.lt_trichotomy (Z.of_nat i) b) as [Hc|[Hc|Hc]].
      * specialize (Lo _ _ Ei Hc). lia.
      * replace i with (Z.to_nat b) in Ei by lia. congruence.
      * specialize (Hi _ _ Ei ltac:(lia)). lia.
    + eexists. split; [reflexivity|]. cbn [found]. intros Hin. apply In_nth_error in Hin as [i Ei].
      assert (i < length s) by (apply nth_error_Some; congruence). specialize (Lo _ _ Ei ltac:(lia)). lia.
Qed.
Lemma slot_scan_spec key s : found key s (slot_scan key s).
Proof.
  induction s as [|x s IH]; cbn [slot_scan found]; [intros []|].
  destruct (N.eqb_spec key x) as [->|Ne]; [reflexivity|].
  destruct (slot_scan key s) as [i|]; cbn [found] in *; [exact IH|]. intros [E|Hin]; [congruence|auto].
Qed.
Lemma get_slotno_spec key s b : (b = true -> ascending s) -> exists r, get_slotno key s b = Some r /\ found key s r.
Proof.
  intros HS. unfold get_slotno. destruct (b && (7 <? length s)) eqn:E.
  - apply andb_prop in E as [-> E]. apply Nat.ltb_lt in E. apply slot_loop_spec; auto; try lia.
    + intros i x Ex Hx. assert (i < length s) by (apply nth_error_Some; congruence). lia.
  - eexists. split; [reflexivity|]. apply slot_scan_spec.
Qed.

(** ** Operations and specification *)
Inductive sop :=
| SStore (k : N) (e : prog)
| SAdd (shared : bool) (k : N) (e : prog)
| SDrop (k : N) (e : prog)
| SDropAll (k : N)
| SReadonly (flag : bool).
(** schemap_readonly, tables.c:1395-1409. *)
Definition sset_readonly (sm : schemap) (b : bool) : schemap :=
  {| schema := schema sm; values := values sm; sm_sorted := sm_sorted sm; sm_readonly := b |}.
Definition sch_step (cf : config) (sm : schemap) (o : sop) : option (Z * schemap) :=
  match o with
  | SStore k e => do v <- run cf e; schemap_store sm k v
  | SAdd sh k e => do v <- run cf e; schemap_add cf sh sm k v
  | SDrop k e => do v <- run cf e; schemap_drop cf sm k v
  | SDropAll k => schemap_drop cf sm k (Simple (SVal KVOID))
  | SReadonly b => Some (1%Z, sset_readonly sm b)
  end.
Fixpoint sch_run (cf : config) (sm : schemap) (ops : list sop) : option (list Z * schemap) :=
  match ops with
  | [] => Some ([], sm)
  | o :: ops =>
    do r <- sch_step cf sm o; let (c, sm') := (r : Z * schemap) in
    do rs <- sch_run cf sm' ops; let (cs, sm'') := (rs : list Z * schemap) in
    Some (c :: cs, sm'')
  end.

Record sstate := { sc : N -> val -> Prop; sro : bool }.
Definition sput (a : sstate) (k : N) (P : val -> Prop) : sstate :=
  {| sc x y := (x = k /\ P y) \/ (x <> k /\ sc a x y); sro := sro a |}.
(** [s]: the schema.  1: done; 0: nothing to do; -1: refused with an error. *)
Definition sstep (s : list N) (a : sstate) (o : sop) (r : Z) (a' : sstate) : Prop :=
  match o with
  | SStore k e =>
    if sro a then r = (-1)%Z /\ a' = a
    else (In k s /\ r = 1%Z /\ a' = sput a k (den e)) \/ (~ In k s /\ r = (-1)%Z /\ a' = a)
  | SAdd _ k e =>
    (r = 0%Z /\ a' = a /\ forall y, ~ den e y) \/
    ((exists y, den e y) /\
     if sro a then r = (-1)%Z /\ a' = a
     else (In k s /\ r = 1%Z /\ a' = sput a k (fun y => sc a k y \/ den e y)) \/
          (~ In k s /\ r = (-1)%Z /\ a' = a))
  | SDrop k e =>
    (r = 0%Z /\ a' = a /\ forall y, ~ den e y) \/
    ((exists y, den e y) /\
     if sro a then r = (-1)%Z /\ a' = a
     else (In k s /\ r = 1%Z /\ a' = sput a k (fun y => sc a k y /\ ~ den e y)) \/
          (~ In k s /\ r = 0%Z /\ a' = a))
  | SDropAll k =>
    if sro a then r = (-1)%Z /\ a' = a
    else (In k s /\ r = 1%Z /\ a' = sput a k (fun _ => False)) \/ (~ In k s /\ r = 0%Z /\ a' = a)
  | SReadonly b => r = 1%Z /\ a' = {| sc := sc a; sro := b |}
  end.
Inductive shist (s : list N) : sstate -> list sop -> list Z -> sstate -> Prop :=
| sh_nil a : shist s a [] [] a
| sh_cons a o r a1 ops rs a2 : sstep s a o r a1 -> shist s a1 ops rs a2 -> shist s a (o :: ops) (r :: rs) a2.

(** Slots: not an error constant and not the empty choice. *)
Definition okslot (k : N) : Prop := troublep (VAtom k) = false /\ k <> 13%N.
Definition wf_sop (o : sop) : Prop :=
  match o with
  | SStore k e | SAdd _ k e | SDrop k e => okslot k /\ okval e
  | SDropAll k => okslot k
  | SReadonly _ => True
  end.

(** ** Simulation *)
Record ssim (s : list N) (b : bool) (sm : schemap) (a : sstate) : Prop := {
  ss_schema : schema sm = s;
  ss_sorted : sm_sorted sm = b;
  ss_ro : sm_readonly sm = sro a;
  ss_nodup : NoDup s;
  ss_asc : b = true -> ascending s;
  ss_len : length (values sm) = length s;
  ss_val : forall i k v, nth_error s i = Some k -> nth_error (values sm) i = Some v -> vgood v (sc a k);
  ss_clean : forall k y, In k s -> sc a k y -> clean y;
}.
Lemma set_at_nth {A} (l : list A) : forall i j v, i < length l ->
  nth_error (set_at i v l) j = if Nat.eqb j i then Some v else nth_error l j.
Proof.
  induction l as [|x l IH]; intros i j v L; cbn in L; [lia|]. destruct i as [|i], j as [|j]; try reflexivity.
  change (nth_error (set_at i v l) j = if Nat.eqb j i then Some v else nth_error l j). apply IH. lia.
Qed.
Lemma set_at_len {A} (l : list A) i v : i < length l -> length (set_at i v l) = length l.
Proof. intros L. destruct (nth_some l i L) as [x E]. eapply set_len_at; eauto. Qed.
Lemma nodup_nth (s : list N) : NoDup s -> forall i j k, nth_error s i = Some k -> nth_error s j = Some k -> i = j.
Proof.
  intros H i j k Ei Ej. apply (proj1 (NoDup_nth_error s) H); [apply nth_error_Some; congruence|congruence].
Qed.
Lemma set_slot_sim s b sm a i k v P : ssim s b sm a -> nth_error s i = Some k -> vgood v P -> (forall y, P y -> clean y) ->
  exists sm', set_slot sm i v = Some sm' /\ ssim s b sm' (sput a k P).
Proof.
  intros H Ei V Cl. assert (L : i < length s) by (apply nth_error_Some; congruence).
  unfold set_slot. destruct (nth_some (values sm) i) as [c Ec]; [rewrite (ss_len _ _ _ _ H); lia|]. rewrite Ec.
  eexists. split; [reflexivity|]. destruct H as [H1 H2 H3 H4 H5 H6 H7 H8]. constructor; cbn; auto.
  - rewrite set_at_len; lia.
  - intros j k' v' Ej Ev. rewrite set_at_nth in Ev by lia. destruct (Nat.eqb_spec j i) as [->|Ne].
    + injection Ev as <-. assert (k' = k) by congruence. subst k'. destruct V as (V1 & V2 & V3). split; auto. split; auto.
      intros y. rewrite V3. tauto.
    + destruct (H7 _ _ _ Ej Ev) as (V1 & V2 & V3). split; auto. split; auto. intros y. rewrite V3.
      assert (k' <> k) by (intros ->; apply Ne; eapply nodup_nth; eauto). tauto.
  - intros k' y Hk [[_ Hy]|[_ Hy]]; eauto.
Qed.
Lemma den_dec cf e : cfg_ok cf -> okval e -> exists v, run cf e = Some v /\ vgood v (den e) /\ trouble v = false /\ lvoidp v = false /\
  (lemptyp v = true /\ (forall y, ~ den e y) \/ lemptyp v = false /\ exists y, den e y).
Proof.
  intros Hcf He. destruct (okval_run cf e Hcf He) as (v & E & V & T). exists v. split; auto. split; auto. split; auto.
  split; [apply (vgood_clean _ _ V (proj2 He))|]. destruct (lemptyp v) eqn:Ee.
  - left. split; auto. now apply (vgood_empty _ _ V).
  - right. split; auto. destruct (lelts v) as [|y r] eqn:El.
    + exfalso. assert (lemptyp v = true); [|congruence]. apply (vgood_empty v (den e)); auto.
      intros y Hy. apply V in Hy. now rewrite El in Hy.
    + exists y. apply V. rewrite El. now left.
Qed.
Lemma sstep_sim cf s b sm a o : cfg_ok cf -> ssim s b sm a -> wf_sop o ->
  exists r sm' a', sch_step cf sm o = Some (r, sm') /\ sstep s a o r a' /\ ssim s b sm' a'.
Proof.
  intros Hcf H Hw. pose proof H as [H1 H2 H3 H4 H5 H6 H7 H8].
  assert (Guard : forall k, okslot k -> troublep (VAtom k) = false /\ (k =? 13)%N = false).
  { intros k [T K]. split; auto. now apply N.eqb_neq. }
  assert (Slot : forall k, exists r, get_slotno k (schema sm) (sm_sorted sm) = Some r /\ found k s r).
  { intros k. rewrite H1, H2. now apply get_slotno_spec. }
  destruct o as [k e|sh k e|k e|k|f]; cbn [wf_sop] in Hw; cbn [sch_step sstep].
  - destruct Hw as [Hk He]. destruct (Guard k Hk) as [G1 G2]. destruct (den_dec cf e Hcf He) as (v & -> & V & T & _).
    unfold schemap_store. rewrite G1, T, G2, H3. destruct (sro a) eqn:Er.
    { eexists _, _, a. split; [reflexivity|]. auto. }
    destruct (Slot k) as ([i|] & -> & F); cbn [found] in F.
    + destruct (set_slot_sim s b sm a i k v (den e) H F V (proj2 He)) as (sm' & -> & S'). eexists _, _, _.
      split; [reflexivity|]. split; [left; split; [eapply nth_error_In; eauto|auto]|exact S'].
    + eexists _, _, a. split; [reflexivity|]. split; [auto 8|auto].
  - destruct Hw as [Hk He]. destruct (Guard k Hk) as [G1 G2]. destruct (den_dec cf e Hcf He) as (v & -> & V & T & _ & [[Ee Ne]|[Ee Ne]]);
    unfold schemap_add; rewrite G1, T, G2, Ee.
    { eexists _, _, a. split; [reflexivity|]. split; auto. }
    rewrite H3. destruct (sro a) eqn:Er.
    { eexists _, _, a. split; [reflexivity|]. split; auto. }
    destruct (Slot k) as ([i|] & -> & F); cbn [found] in F.
    + destruct (nth_some (values sm) i) as [c Ec]; [rewrite H6; apply nth_error_Some; congruence|]. rewrite Ec.
      destruct (H7 _ _ _ F Ec) as (C1 & C2 & C3). destruct V as (V1 & V2 & V3).
      destruct (add_to_choice_spec cf sh c v Hcf C1 C2 V1 V2) as (n & -> & N1 & N2 & N3).
      destruct (set_slot_sim s b sm a i k n (fun y => sc a k y \/ den e y) H F) as (sm' & -> & S').
      { split; auto. split; auto. intros y. now rewrite N3, C3, V3. }
      { intros y [Hy|Hy]; [apply (H8 k); auto; eapply nth_error_In; eauto|now apply He]. }
      eexists _, _, _. split; [reflexivity|]. split; [right; split; auto; left; split; [eapply nth_error_In; eauto|auto]|exact S'].
    + eexists _, _, a. split; [reflexivity|]. split; [auto 8|auto].
  - destruct Hw as [Hk He]. destruct (Guard k Hk) as [G1 G2]. destruct (den_dec cf e Hcf He) as (v & -> & V & T & Vo & [[Ee Ne]|[Ee Ne]]);
    unfold schemap_drop; rewrite G1, T, G2, Ee.
    { eexists _, _, a. split; [reflexivity|]. split; auto. }
    rewrite H3. destruct (sro a) eqn:Er.
    { eexists _, _, a. split; [reflexivity|]. split; auto. }
    destruct (Slot k) as ([i|] & -> & F); cbn [found] in F.
    + destruct (nth_some (values sm) i) as [c Ec]; [rewrite H6; apply nth_error_Some; congruence|]. rewrite Ec, Vo.
      destruct (H7 _ _ _ F Ec) as (C1 & C2 & C3). destruct V as (V1 & V2 & V3).
      destruct (difference_spec cf c v Hcf C1 V1) as (n & -> & N1 & N2 & N3).
      destruct (set_slot_sim s b sm a i k n (fun y => sc a k y /\ ~ den e y) H F) as (sm' & -> & S').
      { split; auto. split; auto. intros y. now rewrite N3, C3, V3. }
      { intros y [Hy _]. apply (H8 k); auto. eapply nth_error_In; eauto. }
      eexists _, _, _. split; [reflexivity|]. split; [right; split; auto; left; split; [eapply nth_error_In; eauto|auto]|exact S'].
    + eexists _, _, a. split; [reflexivity|]. split; [auto 8|auto].
  - destruct (Guard k Hw) as [G1 G2]. unfold schemap_drop. rewrite G1, G2. cbn [trouble troublep lemptyp]. rewrite H3.
    replace (trouble (Simple (SVal KVOID))) with false by reflexivity. replace (is_empty (SVal KVOID)) with false by reflexivity.
    destruct (sro a) eqn:Er.
    { eexists _, _, a. split; [reflexivity|]. auto. }
    destruct (Slot k) as ([i|] & -> & F); cbn [found] in F.
    + destruct (nth_some (values sm) i) as [c Ec]; [rewrite H6; apply nth_error_Some; congruence|]. rewrite Ec.
      replace (lvoidp (Simple (SVal KVOID))) with true by reflexivity.
      destruct (set_slot_sim s b sm a i k EMPTYV (fun _ => False) H F emptyv_good) as (sm' & -> & S'); [intros y []|].
      eexists _, _, _. split; [reflexivity|]. split; [left; split; [eapply nth_error_In; eauto|auto]|exact S'].
    + eexists _, _, a. split; [reflexivity|]. split; [auto 8|auto].
  - eexists _, _, _. split; [reflexivity|]. split; [split; reflexivity|]. constructor; auto.
Qed.
Lemma srun_sim cf s b ops : cfg_ok cf -> Forall wf_sop ops -> forall sm a, ssim s b sm a ->
  exists rs sm' a', sch_run cf sm ops = Some (rs, sm') /\ shist s a ops rs a' /\ ssim s b sm' a'.
Proof.
  intros Hcf. induction 1 as [|o ops Ho Hops IH]; intros sm a HS; cbn [sch_run].
  - exists [], sm, a. split; auto. split; [constructor|auto].
  - destruct (sstep_sim cf s b sm a o Hcf HS Ho) as (r & sm1 & a1 & -> & A & S1).
    destruct (IH sm1 a1 S1) as (rs & sm2 & a2 & -> & A2 & S2).
    exists (r :: rs), sm2, a2. split; auto. split; auto. econstructor; eauto.
Qed.

(** ** C15 *)
(** A schemap made with a value for each slot of its schema.  [sorted] promises that
    the slots ascend. *)
Definition schema_ok (s : list N) (sorted : bool) : Prop :=
  NoDup s /\ Forall okslot s /\ (sorted = true -> ascending s).
Fixpoint run_all (cf : config) (es : list prog) : option (list lv) :=
  match es with
  | [] => Some []
  | e :: es => do v <- run cf e; do vs <- run_all cf es; Some (v :: vs)
  end.
(** The initial contents: the i-th value belongs to the i-th slot. *)
Definition s_init (s : list N) (es : list prog) : sstate :=
  {| sc k y := exists i e, nth_error s i = Some k /\ nth_error es i = Some e /\ den e y; sro := false |}.
Lemma run_all_spec cf es : cfg_ok cf -> Forall okval es -> exists vs, run_all cf es = Some vs /\ length vs = length es /\
  forall i e v, nth_error es i = Some e -> nth_error vs i = Some v -> vgood v (den e).
Proof.
  intros Hcf. induction 1 as [|e es He Hes IH]; cbn [run_all].
  - exists []. split; auto. split; auto. intros [|i]; discriminate.
  - destruct (okval_run cf e Hcf He) as (v & -> & V & _). destruct IH as (vs & -> & L & G).
    eexists. split; [reflexivity|]. split; [cbn; lia|]. intros [|i] e' v' E1 E2; cbn in E1, E2; [congruence|eauto].
Qed.
Lemma ssim_init cf s b es vs : cfg_ok cf -> schema_ok s b -> Forall okval es -> length es = length s -> run_all cf es = Some vs ->
  ssim s b (make_schemap s b (Some vs)) (s_init s es).
Proof.
  intros Hcf (N & O & A) He L E. destruct (run_all_spec cf es Hcf He) as (vs' & E' & L' & G).
  assert (vs' = vs) by congruence. subst vs'. constructor; cbn; auto; try lia.
  - intros i k v Ek Ev. destruct (nth_some es i) as [e Ee]; [rewrite L; apply nth_error_Some; congruence|].
    destruct (G _ _ _ Ee Ev) as (V1 & V2 & V3). split; auto. split; auto. intros y. rewrite V3. split; [eauto|].
    intros (j & e' & Ej & Ee' & Hy). assert (j = i) by (eapply nodup_nth; eauto). subst j. congruence.
  - intros k y _ (i & e & _ & Ee & Hy). apply nth_error_In in Ee. rewrite Forall_forall in He. now apply (He e).
Qed.
Lemma sget_spec cf s b sm a k d : cfg_ok cf -> ssim s b sm a -> exists v, schemap_get cf sm k d = Some v /\
  (In k s -> exists c, v = Simple c /\ represents c (sc a k)) /\ (~ In k s -> v = d).
Proof.
  intros Hcf [H1 H2 H3 H4 H5 H6 H7 H8]. unfold schemap_get. rewrite H1, H2.
  destruct (get_slotno_spec k s b H5) as ([i|] & -> & F); cbn [found] in F.
  - destruct (nth_some (values sm) i) as [c Ec]; [rewrite H6; apply nth_error_Some; congruence|]. rewrite Ec.
    destruct (H7 _ _ _ F Ec) as (C1 & C2 & C3). destruct (simplify_spec cf c Hcf C1) as (x & Ex & X1 & X2).
    exists (Simple x). split; [destruct c; [cbn in Ex; congruence|now rewrite Ex]|].
    split; [|intros Hn; elim Hn; eapply nth_error_In; eauto]. intros _. exists x. split; auto. split; auto.
    intros y. now rewrite X2, C3.
  - exists d. split; auto. split; [tauto|auto].
Qed.
Lemma stest_spec cf s b sm a k v P : cfg_ok cf -> ssim s b sm a -> vgood v P -> (forall y, P y -> clean y) ->
  exists r, schemap_test cf sm k v = Some r /\
   (r = true <-> In k s /\ ((exists y, P y /\ sc a k y) \/ (forall y, ~ P y) /\ (forall y, ~ sc a k y))).
Proof.
  intros Hcf [H1 H2 H3 H4 H5 H6 H7 H8] V Cl. unfold schemap_test. rewrite H1, H2.
  destruct (get_slotno_spec k s b H5) as ([i|] & -> & F); cbn [found] in F.
  - destruct (nth_some (values sm) i) as [c Ec]; [rewrite H6; apply nth_error_Some; congruence|]. rewrite Ec.
    destruct (test_values_spec cf v P c (sc a k) Hcf V Cl (H7 _ _ _ F Ec)) as (r & E & B). exists r. split; auto.
    apply nth_error_In in F. tauto.
  - exists false. split; auto. split; [discriminate|tauto].
Qed.
Theorem C15_schemap_history_partial : forall cf s sorted es ops, (0 < block_size cf)%nat -> schema_ok s sorted ->
  Forall okval es -> length es = length s -> Forall wf_sop ops ->
  exists vs rs sm a, run_all cf es = Some vs /\ sch_run cf (make_schemap s sorted (Some vs)) ops = Some (rs, sm) /\
    shist s (s_init s es) ops rs a /\ schema sm = s /\
    (forall k d, exists v, schemap_get cf sm k d = Some v /\
      (In k s -> exists c, v = Simple c /\ canonical c (sc a k)) /\ (~ In k s -> v = d)) /\
    (forall k e, okval e -> exists v b, run cf e = Some v /\ schemap_test cf sm k v = Some b /\
      (b = true <-> In k s /\ ((exists y, den e y /\ sc a k y) \/ (forall y, ~ den e y) /\ (forall y, ~ sc a k y)))).
Proof.
  intros cf s sorted es ops Hcf Hs He L Hw. destruct (run_all_spec cf es Hcf He) as (vs & Ev & _).
  pose proof (ssim_init cf s sorted es vs Hcf Hs He L Ev) as HI.
  destruct (srun_sim cf s sorted ops Hcf Hw _ _ HI) as (rs & sm & a & Er & A & S). exists vs, rs, sm, a.
  split; auto. split; auto. split; auto. split; [apply (ss_schema _ _ _ _ S)|]. split.
  - intros k d. destruct (sget_spec cf s sorted sm a k d Hcf S) as (v & Eg & G1 & G2). exists v. split; auto. split; auto.
    intros Hk. destruct (G1 Hk) as (c & -> & Rc). exists c. split; auto. now apply represents_canonical.
  - intros k e Hok. destruct (okval_run cf e Hcf Hok) as (v & Er' & V & _).
    destruct (stest_spec cf s sorted sm a k v (den e) Hcf S V (proj2 Hok)) as (b & Eb & B). exists v, b. auto.
Qed.
(** A slot outside the schema is refused with an error and the table is unchanged. *)
Theorem C15_other_slots_refused : forall cf s sorted es vs ops rs sm k e, (0 < block_size cf)%nat -> schema_ok s sorted ->
  Forall okval es -> length es = length s -> Forall wf_sop ops -> run_all cf es = Some vs ->
  sch_run cf (make_schemap s sorted (Some vs)) ops = Some (rs, sm) -> okslot k -> okval e -> ~ In k s ->
  sch_step cf sm (SStore k e) = Some ((-1)%Z, sm) /\
  forall sh, (exists y, den e y) -> sch_step cf sm (SAdd sh k e) = Some ((-1)%Z, sm).
Proof.
  intros cf s sorted es vs ops rs sm k e Hcf Hs He L Hw Ev Er Hk Hok Hn.
  pose proof (ssim_init cf s sorted es vs Hcf Hs He L Ev) as HI.
  destruct (srun_sim cf s sorted ops Hcf Hw _ _ HI) as (rs' & sm' & a & Er' & _ & S).
  rewrite Er in Er'. injection Er' as <- <-. destruct S as [H1 H2 H3 H4 H5 H6 H7 H8].
  destruct Hk as [K1 K2]. assert (K3 : (k =? 13)%N = false) by now apply N.eqb_neq.
  destruct (get_slotno_spec k s sorted H5) as (r & Eg & F).
  assert (r = None) as ->. { destruct r; auto. elim Hn. cbn in F. eapply nth_error_In; eauto. }
  destruct (den_dec cf e Hcf Hok) as (v & Erun & V & T & _ & D). cbn [sch_step]. rewrite Erun.
  unfold schemap_store, schemap_add. rewrite K1, T, K3, H1, H2, Eg. split; [destruct (sm_readonly sm); auto|].
  intros sh (y & Hy). destruct D as [[_ D]|[-> _]]; [elim (D y Hy)|]. destruct (sm_readonly sm); auto.
Qed.
(** The search of a sorted schema (binary from 8 slots on) finds exactly the slots. *)
Theorem C15_sorted_lookup : forall s key, StronglySorted N.lt s ->
  exists r, get_slotno key s true = Some r /\
    match r with Some i => nth_error s i = Some key | None => ~ In key s end.
Proof. intros s key H. apply get_slotno_spec. auto. Qed.
(** kno_sort_schema gives an ascending schema with the same slots. *)
Theorem C15_sort_schema : forall s, NoDup s -> exists s', sort_schema s = Some s' /\ Permutation s s' /\ StronglySorted N.lt s'.
Proof.
  intros s Hn. unfold sort_schema.
  destruct (sort_vec_spec (fun x y => Some (N.compare x y)) (fun _ => True) N.compare) with (check := false) (v := s)
    as (s' & E & P & S).
  - auto. - intros x y _ _. now rewrite N.compare_antisym.
  - intros x y z _ _ _ A B. rewrite N.compare_le_iff in *. lia.
  - now apply Forall_forall.
  - exists s'. split; auto. split; auto. assert (Hn' : NoDup s') by (eapply Permutation_NoDup; eauto).
    clear -S Hn'. induction S as [|x s S IH F]; [constructor|]. inversion Hn'; subst. constructor; auto.
    rewrite Forall_forall in *. intros y Hy. specialize (F y Hy). unfold SortProofs.le in F.
    rewrite N.compare_le_iff in F. assert (x <> y) by (intros ->; auto). lia.
Qed.

(** ** Findings *)
Definition KNO_VOID_LV : lv := Simple (SVal KVOID).
(** kno_make_schemap without values fills the slots with #VOID: reading an unset slot
    does not give the default, and adding to one makes #VOID a value of the slot. *)
Theorem C15_unset_slots_refuted : exists cf s k v, (0 < block_size cf)%nat /\ schema_ok s false /\ In k s /\ clean v /\ elt_ok v /\
  schemap_get cf (make_schemap s false None) k (Simple (SVal v)) = Some KNO_VOID_LV /\
  exists sm, sch_step cf (make_schemap s false None) (SAdd false k (PVal v)) = Some (1%Z, sm) /\
    schemap_get cf sm k KNO_VOID_LV = Some (Simple (SChoice true [KVOID; v])).
Proof.
  exists {| small_threshold := 4; big_threshold := 1000; block_size := 16 |}, [6; 10]%N, 6%N, (fx 1). split; [simpl; lia|].
  split.
  { split; [repeat constructor; simpl; intuition discriminate|]. split; [|discriminate]. repeat constructor; discriminate. }
  split; [now left|]. split; [apply fx_clean|]. split; [apply fx_elt|]. split; [reflexivity|].
  eexists. split; [vm_compute; reflexivity|]. vm_compute; reflexivity.
Qed.

(** ** C19 for schemaps *)
Lemma cmp_atoms x y : cons_compare (VAtom x) (VAtom y) = N.compare x y.
Proof. reflexivity || (cbn; rewrite N.compare_antisym; destruct (N.compare_spec x y); subst; rewrite ?N.eqb_refl; auto). Qed.
(** For slots that are atoms (symbols are): the key set and the key vector are the
    slots that lookup finds. *)
Theorem C19_schemap_keys_partial : forall cf sm sorted, (0 < block_size cf)%nat -> schema_ok (schema sm) sorted -> sm_sorted sm = sorted ->
  length (values sm) = length (schema sm) -> Forall (fun k => elt_ok (VAtom k)) (schema sm) ->
  (exists v, schemap_keys cf sm = Some v /\ canonical v (fun x => exists k, x = VAtom k /\ In k (schemap_keyvec sm))) /\
  forall k, In k (schemap_keyvec sm) <-> exists v, schemap_test cf sm k v = Some true.
Proof.
  intros cf sm sorted Hcf (Nd & Ok & As) Hb L El. split.
  - assert (Mean : forall x, (exists k, x = VAtom k /\ In k (schemap_keyvec sm)) <-> In x (map VAtom (schema sm))).
    { intros x. rewrite in_map_iff. unfold schemap_keyvec. split; intros (k & A & B); exists k; auto. }
    assert (Elv : Forall elt_ok (map VAtom (schema sm))) by now rewrite Forall_map.
    assert (Gen : forall v, represents v (fun x => In x (map VAtom (schema sm))) -> canonical v (fun x => exists k, x = VAtom k /\ In k (schemap_keyvec sm))).
    { intros v Hv. apply represents_canonical. eapply represents_ext; [|exact Hv]. intros x. now rewrite Mean. }
    unfold schemap_keys. destruct (schema sm) as [|k1 [|k2 s]] eqn:Es; cbn [map] in *.
    + exists (SVal KEMPTY). split; auto. apply Gen. split; [now left|]. simpl. tauto.
    + inversion Elv; subst. eexists. split; [reflexivity|]. apply Gen. split; [now right|]. intros x. now rewrite selts_elt.
    + destruct (init_choice_spec cf (VAtom k1 :: VAtom k2 :: map VAtom s)
        {| f_sort := negb (sm_sorted sm); f_compress := false; f_realloc := false; f_atomic := false; f_conses := false |}) as (v & E & Rv & _); auto.
      * apply Forall_forall. intros x _. cbn. discriminate.
      * rewrite Hb. cbn [f_sort f_compress]. destruct sorted; cbn [negb]; [|auto]. right. right. split; auto. split; auto.
        specialize (As eq_refl). change (ssorted (map VAtom (k1 :: k2 :: s))). clear -As. unfold ascending in As.
        induction As as [|a l S IH F]; cbn [map]; constructor; auto. apply Forall_map. eapply Forall_impl; [|exact F].
        intros b Hab. cbn beta. unfold ChoicesProofs.lt. rewrite cmp_atoms. now apply N.compare_lt_iff.
      * right. exists (VAtom k1), (VAtom k2). split; [now left|]. split; [right; now left|].
        inversion Nd as [|? ? Hn _]; subst. intros E. apply Hn. left. congruence.
      * exists v. split; [exact E|]. apply Gen. exact Rv.
  - intros k. unfold schemap_keyvec, schemap_test. rewrite Hb.
    destruct (get_slotno_spec k (schema sm) sorted As) as ([i|] & -> & F); cbn [found] in F.
    + destruct (nth_some (values sm) i) as [c Ec]; [rewrite L; apply nth_error_Some; congruence|]. rewrite Ec.
      split; intros _; [exists KNO_VOID_LV; reflexivity|]. eapply nth_error_In; eauto.
    + split; [tauto|]. intros (v & Hv). discriminate.
Qed.
(** kno_schemap_assocs of a table with two or more slots returns the slots instead of
    the pairs, whatever the values. *)
Theorem C19_schemap_assocs_refuted : forall cf sm, (2 <= length (schema sm))%nat -> NoDup (schema sm) -> (0 < block_size cf)%nat ->
  Forall (fun k => elt_ok (VAtom k)) (schema sm) ->
  exists v, schemap_assocs cf sm = Some v /\ canonical v (fun x => exists k, x = VAtom k /\ In k (schema sm)).
Proof.
  intros cf sm L Nd Hcf El. unfold schemap_assocs.
  destruct (schema sm) as [|k1 [|k2 s]] eqn:Es; cbn [map length] in *; try lia.
  destruct (init_choice_spec cf (VAtom k1 :: VAtom k2 :: map VAtom s)
    {| f_sort := true; f_compress := false; f_realloc := false; f_atomic := false; f_conses := false |}) as (v & E & Rv & _); auto.
  - change (Forall elt_ok (map VAtom (k1 :: k2 :: s))). now rewrite Forall_map.
  - apply Forall_forall. intros x _. cbn. discriminate.
  - right. exists (VAtom k1), (VAtom k2). split; [now left|]. split; [right; now left|].
    inversion Nd as [|? ? Hn _]; subst. intros E. apply Hn. left. congruence.
  - exists v. split; [exact E|]. apply represents_canonical. eapply represents_ext; [|exact Rv]. intros x.
    change (In x (map VAtom (k1 :: k2 :: s)) <-> exists k, x = VAtom k /\ In k (k1 :: k2 :: s)). rewrite in_map_iff.
    split; intros (k & A & B); exists k; auto.
Qed.

(** ** A concrete table: ten sorted slots (binary search), updates and refusals. *)
Definition schema_ex : list N := [6; 10; 14; 22; 30; 34; 42; 46; 50; 58]%N.
Definition sops_ex : list sop :=
  [SStore 42 (PVal (fx 1)); SAdd false 42 (PVal (fx 2)); SStore 38 (PVal (fx 3)); SAdd false 6 (PVal (fx 7));
   SDrop 6 (PVal (fx 0)); SDropAll 58; SDrop 62 (PVal (fx 1)); SReadonly true; SStore 6 (PVal (fx 9))].
Definition cf15 : config := {| small_threshold := 4; big_threshold := 1000; block_size := 16 |}.
Example C15_met : schema_ok schema_ex true /\ Forall wf_sop sops_ex /\
  exists vs rs sm, run_all cf15 (repeat (PVal (fx 0)) 10) = Some vs /\
    sch_run cf15 (make_schemap schema_ex true (Some vs)) sops_ex = Some (rs, sm) /\ rs = [1; 1; -1; 1; 1; 1; 0; 1; -1]%Z /\
    schemap_get cf15 sm 42 KNO_VOID_LV = Some (Simple (SChoice true [fx 1; fx 2])) /\
    schemap_get cf15 sm 6 KNO_VOID_LV = Some (Simple (SVal (fx 7))) /\
    schemap_get cf15 sm 58 KNO_VOID_LV = Some (Simple (SVal KEMPTY)) /\
    schemap_get cf15 sm 38 KNO_VOID_LV = Some KNO_VOID_LV.
Proof.
  split; [split; [|split]|split].
  - repeat constructor; simpl; intuition discriminate.
  - repeat constructor; discriminate.
  - intros _. repeat constructor.
  - assert (V : forall n, okval (PVal (fx n))). { intros n. split; [apply fx_elt|]. cbn. intros y ->. apply fx_clean. }
    unfold sops_ex. repeat (apply Forall_cons; [cbn [wf_sop]; try (split; [split; [reflexivity|discriminate]|apply V]); try (split; [reflexivity|discriminate]); exact I|]).
    constructor.
  - do 3 eexists. split; [reflexivity|]. split; [vm_compute; reflexivity|]. repeat split; vm_compute; reflexivity.
Qed.
Example C15_sort_met : sort_schema [30; 6; 22; 10]%N = Some [6; 10; 22; 30]%N.
Proof. reflexivity. Qed.

Print Assumptions C15_schemap_history_partial.
Print Assumptions C15_other_slots_refused.
Print Assumptions C15_sorted_lookup.
Print Assumptions C15_sort_schema.
Print Assumptions C15_unset_slots_refuted.
Print Assumptions C19_schemap_keys_partial.
Print Assumptions C19_schemap_assocs_refuted.

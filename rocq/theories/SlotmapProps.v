(** * C14 (and C19 for slotmaps): a slotmap is a map from keys to sets of values.

    The specification is the abstract map of TableProofs ([pres]: the present keys,
    [cont]: the set of values of each key) and the relation [astep] below; the model is
    run by [sm_run].  Values are built by the programs of ChoicesProps. *)
From Coq Require Import Lia Permutation Sorting.Sorted List.
From Verif Require Import ValueModel ValueProofs SortModel SortProofs ChoicesModel SlotmapModel
  ChoicesProofs ChoicesProofs2 ChoicesProofs3 ChoicesProps TableProofs SlotmapProofs.
Import ListNotations.

(** ** Operations *)
Inductive op :=
| OStore (k : val) (e : prog)
| OAdd (shared : bool) (k : val) (e : prog)
| ODrop (k : val) (e : prog)          (* drop the values of [e] from the key *)
| ODropAll (k : val)                  (* kno_slotmap_drop(sm,k,VOID) *)
| ODelete (k : val)
| OSort (sorted : bool)               (* kno_sort_slotmap *)
| OReadonly (flag : bool).            (* kno_slotmap_set_readonly *)

(** slotmap_readonly, tables.c:488-500. *)
Definition set_readonly (sm : slotmap) (b : bool) : slotmap :=
  {| kvs := kvs sm; allocd := allocd sm; sortbit := sortbit sm; readonly := b |}.
Definition sm_step (cf : config) (sm : slotmap) (o : op) : option (Z * slotmap) :=
  match o with
  | OStore k e => do v <- run cf e; slotmap_store sm k v
  | OAdd sh k e => do v <- run cf e; slotmap_add cf sh sm k v
  | ODrop k e => do v <- run cf e; slotmap_drop cf sm k v
  | ODropAll k => slotmap_drop cf sm k (Simple (SVal KVOID))
  | ODelete k => slotmap_delete sm k
  | OSort b => sort_slotmap sm b
  | OReadonly b => Some (1%Z, set_readonly sm b)
  end.
Fixpoint sm_run (cf : config) (sm : slotmap) (ops : list op) : option (list Z * slotmap) :=
  match ops with
  | [] => Some ([], sm)
  | o :: ops =>
    do r <- sm_step cf sm o; let (c, sm') := (r : Z * slotmap) in
    do rs <- sm_run cf sm' ops; let (cs, sm'') := (rs : list Z * slotmap) in
    Some (c :: cs, sm'')
  end.

(** ** Specification *)
Record astate := { am : amap; asorted : bool; aro : bool }.
Definition put (a : astate) (m : amap) : astate := {| am := m; asorted := asorted a; aro := aro a |}.
(** An unsorted slotmap holds at least 32767 keys before it refuses a new one. *)
Definition overflow (a : astate) (k : val) : Prop :=
  asorted a = false /\ ~ pres (am a) k /\
  exists ks, NoDup ks /\ (32767 <= N.of_nat (length ks))%N /\ Forall (pres (am a)) ks.
Definition added (a : astate) (k : val) (r : Z) : Prop :=
  (r = 0%Z /\ pres (am a) k) \/ (r = 1%Z /\ ~ pres (am a) k).
Definition removed (a : astate) (k : val) (r : Z) : Prop :=
  (r = 1%Z /\ pres (am a) k) \/ (r = 0%Z /\ ~ pres (am a) k).
Definition refused (a : astate) (r : Z) (a' : astate) : Prop := r = (-1)%Z /\ a' = a.
Definition astep (a : astate) (o : op) (r : Z) (a' : astate) : Prop :=
  match o with
  | OStore k e =>
    if emptyp k then r = 0%Z /\ a' = a
    else if aro a then refused a r a'
    else (refused a r a' /\ overflow a k) \/ (added a k r /\ a' = put a (a_store (am a) k (den e)))
  | OAdd _ k e =>
    if emptyp k then r = 0%Z /\ a' = a
    else (r = 0%Z /\ a' = a /\ forall y, ~ den e y) \/
         ((exists y, den e y) /\
          if aro a then refused a r a'
          else (refused a r a' /\ overflow a k) \/ (added a k r /\ a' = put a (a_add (am a) k (den e))))
  | ODrop k e =>
    if emptyp k then r = 0%Z /\ a' = a
    else if aro a then refused a r a'
    else removed a k r /\ a' = put a (a_drop (am a) k (den e))
  | ODropAll k | ODelete k =>
    if emptyp k then r = 0%Z /\ a' = a
    else if aro a then refused a r a'
    else removed a k r /\ a' = put a (a_delete (am a) k)
  | OSort b => r = (if Bool.eqb b (asorted a) then 0%Z else 1%Z) /\
               a' = {| am := am a; asorted := b; aro := aro a |}
  | OReadonly b => r = 1%Z /\ a' = {| am := am a; asorted := asorted a; aro := b |}
  end.
Inductive ahist : astate -> list op -> list Z -> astate -> Prop :=
| h_nil a : ahist a [] [] a
| h_cons a o r a1 ops rs a2 : astep a o r a1 -> ahist a1 ops rs a2 -> ahist a (o :: ops) (r :: rs) a2.
Definition a_init : astate := {| am := a_empty; asorted := false; aro := false |}.

(** Keys: any element value that is not an error constant; or the empty choice.
    Values: sets without error constants and #UNBOUND. *)
Definition okkey (k : val) : Prop := k = KEMPTY \/ key_ok k.
Definition okval (e : prog) : Prop := wf e /\ forall y, den e y -> clean y.
Definition wf_op (o : op) : Prop :=
  match o with
  | OStore k e | OAdd _ k e | ODrop k e => okkey k /\ okval e
  | ODropAll k | ODelete k => okkey k
  | _ => True
  end.

(** ** Simulation *)
Definition sim (sm : slotmap) (a : astate) : Prop :=
  sm_ok sm (am a) /\ sortbit sm = asorted a /\ readonly sm = aro a.
Lemma okval_run cf e : cfg_ok cf -> okval e -> exists v, run cf e = Some v /\ vgood v (den e) /\ trouble v = false.
Proof.
  intros Hcf [Hw Hc]. destruct (run_good cf e Hcf Hw) as (v & E & A & B & C). exists v. split; auto.
  assert (V : vgood v (den e)) by (split; auto). split; auto. now apply (vgood_clean _ _ V).
Qed.
Definition touched (o : op) : option val :=
  match o with OStore k _ | OAdd _ k _ | ODrop k _ | ODropAll k | ODelete k => Some k | _ => None end.
Definition frame (o : op) (sm sm' : slotmap) : Prop :=
  forall k' v', touched o <> Some k' -> (In (k', v') (kvs sm') <-> In (k', v') (kvs sm)).
Lemma sim_put sm sm' a m : sim sm a -> same_bits sm sm' -> sm_ok sm' m -> sim sm' (put a m).
Proof. intros (_ & B & C) [S1 S2] M. split; auto. cbn. now rewrite S1, S2. Qed.
Lemma full_overflow sm a k : sim sm a -> full sm k -> overflow a k.
Proof.
  intros (M & B & C) (F1 & F2 & F3). pose proof (so_R _ _ M) as HR. split; [congruence|].
  split; [now rewrite (r_pres _ _ HR)|]. exists (keys_of (kvs sm)). split; [apply (r_nodup _ _ HR)|].
  split; [now rewrite keys_len|]. apply Forall_forall. intros x. now rewrite (r_pres _ _ HR).
Qed.
Lemma fresh_added sm a k r : sim sm a -> fresh_code sm k r -> added a k r.
Proof. intros (M & _) F. unfold added. now rewrite (r_pres _ _ (so_R _ _ M)). Qed.
Lemma found_removed sm a k r : sim sm a -> found_code sm k r -> removed a k r.
Proof. intros (M & _) F. unfold removed. now rewrite (r_pres _ _ (so_R _ _ M)). Qed.
Lemma frame_refl o sm : frame o sm sm.
Proof. intros k v _. tauto. Qed.
Lemma trouble_empty : troublep KEMPTY = false. Proof. reflexivity. Qed.

Lemma step_sim cf sm a o : cfg_ok cf -> sim sm a -> wf_op o ->
  exists r sm' a', sm_step cf sm o = Some (r, sm') /\ astep a o r a' /\ sim sm' a' /\ frame o sm sm'.
Proof.
  intros Hcf HS Hw. pose proof HS as (M & HB & HRo). destruct o as [k e|sh k e|k e|k|k|b|b]; cbn [wf_op] in Hw; cbn [sm_step astep].
  - destruct Hw as [Hk Hv]. destruct (okval_run cf e Hcf Hv) as (v & -> & V & T).
    destruct Hk as [->|Hk].
    { exists 0%Z, sm, a. unfold slotmap_store. rewrite trouble_empty, T. split; [reflexivity|]. split; [split; reflexivity|]. split; [exact HS|apply frame_refl]. }
    destruct (key_guard k Hk) as [G1 G2]. rewrite G2. destruct (aro a) eqn:Er.
    { eexists (-1)%Z, sm, a. unfold slotmap_store. rewrite G1, T, G2, HRo. split; auto. split; [split; auto|]. split; auto. apply frame_refl. }
    destruct (store_spec sm (am a) M k v (den e) Hk V (proj2 Hv) HRo) as [[E F]|(r & sm' & E & F & B & M' & Fr)]; rewrite E.
    + eexists _, _, a. split; [reflexivity|]. split; [left; split; [split; auto|eapply full_overflow; eauto]|]. split; auto. apply frame_refl.
    + exists r, sm'. eexists. split; [reflexivity|]. split; [right; split; [eapply fresh_added; eauto|reflexivity]|].
      split; [now apply (sim_put sm)|]. intros k' v' Hne. apply Fr. cbn in Hne. congruence.
  - destruct Hw as [Hk Hv]. destruct (okval_run cf e Hcf Hv) as (v & -> & V & T).
    destruct Hk as [->|Hk].
    { exists 0%Z, sm, a. unfold slotmap_add. rewrite trouble_empty, T. split; [reflexivity|]. split; [split; reflexivity|]. split; [exact HS|apply frame_refl]. }
    destruct (key_guard k Hk) as [G1 G2]. rewrite G2.
    destruct (lemptyp v) eqn:Ee.
    { rewrite add_empty by auto. eexists _, _, a. split; [reflexivity|].
      split; [left; split; auto; split; auto; now apply (vgood_empty _ _ V)|]. split; auto. apply frame_refl. }
    assert (Ne : exists y, den e y).
    { destruct V as (V1 & V2 & V3). destruct (lelts v) as [|y r] eqn:El.
      - exfalso. assert (lemptyp v = true); [|congruence].
        apply (vgood_empty v (den e)); [split; auto; split; auto; now rewrite El|]. intros y Hy. now apply V3 in Hy.
      - exists y. apply V3. now left. }
    destruct (aro a) eqn:Er.
    { eexists (-1)%Z, sm, a. unfold slotmap_add. rewrite G1, T, G2, Ee, HRo. split; auto. split; [right; split; [auto|split; auto]|]. split; auto. apply frame_refl. }
    destruct (add_spec cf Hcf sm (am a) M sh k v (den e) Hk V (proj2 Hv) HRo Ne) as [[E F]|(r & sm' & E & F & B & M' & Fr)]; rewrite E.
    + eexists _, _, a. split; [reflexivity|]. split; [right; split; auto; left; split; [split; auto|eapply full_overflow; eauto]|]. split; auto. apply frame_refl.
    + exists r, sm'. eexists. split; [reflexivity|]. split; [right; split; auto; right; split; [eapply fresh_added; eauto|reflexivity]|].
      split; [now apply (sim_put sm)|]. intros k' v' Hne. apply Fr. cbn in Hne. congruence.
  - destruct Hw as [Hk Hv]. destruct (okval_run cf e Hcf Hv) as (v & -> & V & T).
    destruct Hk as [->|Hk].
    { exists 0%Z, sm, a. unfold slotmap_drop. rewrite trouble_empty, T. split; [reflexivity|]. split; [split; reflexivity|]. split; [exact HS|apply frame_refl]. }
    destruct (key_guard k Hk) as [G1 G2]. rewrite G2. destruct (aro a) eqn:Er.
    { eexists (-1)%Z, sm, a. unfold slotmap_drop. rewrite G1, T, G2, HRo. split; auto. split; [split; auto|]. split; auto. apply frame_refl. }
    destruct (drop_spec cf Hcf sm (am a) M k v (den e) Hk V (proj2 Hv) HRo) as (r & sm' & E & F & B & M' & Fr); rewrite E.
    exists r, sm'. eexists. split; [reflexivity|]. split; [split; [eapply found_removed; eauto|reflexivity]|].
    split; [now apply (sim_put sm)|]. intros k' v' Hne. apply Fr. cbn in Hne. congruence.
  - destruct Hw as [->|Hk].
    { exists 0%Z, sm, a. unfold slotmap_drop. rewrite trouble_empty. split; [reflexivity|]. split; [split; reflexivity|]. split; [exact HS|apply frame_refl]. }
    destruct (key_guard k Hk) as [G1 G2]. rewrite G2. destruct (aro a) eqn:Er.
    { eexists (-1)%Z, sm, a. unfold slotmap_drop. rewrite G1, G2, HRo. split; auto. split; [split; auto|]. split; auto. apply frame_refl. }
    destruct (drop_all_spec cf sm (am a) M k Hk HRo) as (r & sm' & E & F & B & M' & Fr); rewrite E.
    exists r, sm'. eexists. split; [reflexivity|]. split; [split; [eapply found_removed; eauto|reflexivity]|].
    split; [now apply (sim_put sm)|]. intros k' v' Hne. apply Fr. cbn in Hne. congruence.
  - destruct Hw as [->|Hk].
    { exists 0%Z, sm, a. unfold slotmap_delete. rewrite trouble_empty. split; [reflexivity|]. split; [split; reflexivity|]. split; [exact HS|apply frame_refl]. }
    destruct (key_guard k Hk) as [G1 G2]. rewrite G2. destruct (aro a) eqn:Er.
    { eexists (-1)%Z, sm, a. unfold slotmap_delete. rewrite G1, G2, HRo. split; auto. split; [split; auto|]. split; auto. apply frame_refl. }
    destruct (delete_spec sm (am a) M k Hk HRo) as (r & sm' & E & F & B & M' & Fr); rewrite E.
    exists r, sm'. eexists. split; [reflexivity|]. split; [split; [eapply found_removed; eauto|reflexivity]|].
    split; [now apply (sim_put sm)|]. intros k' v' Hne. apply Fr. cbn in Hne. congruence.
  - destruct (sort_spec sm (am a) M b) as (r & sm' & -> & B1 & B2 & M' & -> & P).
    eexists _, _, _. split; [reflexivity|]. rewrite HB. split; [split; reflexivity|].
    split; [split; cbn; auto; split; congruence|]. intros k' v' _. split; apply Permutation_in; [now symmetry|auto].
  - eexists _, _, _. split; [reflexivity|]. split; [split; reflexivity|].
    split; [|intros k' v' _; cbn; tauto]. split; cbn; auto. destruct M as [A B C]. now constructor.
Qed.
Lemma run_sim cf ops : cfg_ok cf -> Forall wf_op ops -> forall sm a, sim sm a ->
  exists rs sm' a', sm_run cf sm ops = Some (rs, sm') /\ ahist a ops rs a' /\ sim sm' a'.
Proof.
  intros Hcf. induction 1 as [|o ops Ho Hops IH]; intros sm a HS; cbn [sm_run].
  - exists [], sm, a. split; auto. split; [constructor|auto].
  - destruct (step_sim cf sm a o Hcf HS Ho) as (r & sm1 & a1 & -> & A & S1 & _).
    destruct (IH sm1 a1 S1) as (rs & sm2 & a2 & -> & A2 & S2).
    exists (r :: rs), sm2, a2. split; auto. split; auto. econstructor; eauto.
Qed.
Lemma sim_init space : sim (init_slotmap space) a_init.
Proof.
  split; [|split; reflexivity]. constructor; cbn; [apply R_empty|discriminate|lia].
Qed.
(** Reachable slotmaps: any history on a new slotmap of any initial size. *)
Definition reaches (cf : config) (space : N) (ops : list op) (rs : list Z) (sm : slotmap) : Prop :=
  sm_run cf (init_slotmap space) ops = Some (rs, sm).
Lemma reaches_sim cf space ops rs sm : cfg_ok cf -> Forall wf_op ops -> reaches cf space ops rs sm ->
  exists a, ahist a_init ops rs a /\ sim sm a.
Proof.
  intros Hcf Hw E. destruct (run_sim cf ops Hcf Hw _ _ (sim_init space)) as (rs' & sm' & a' & E' & A & S).
  unfold reaches in E. rewrite E in E'. injection E' as -> ->. eauto.
Qed.

(** ** C14 *)
(** Every history runs, its return codes and final lookups are those of the abstract
    map; every key is stored once.  [d]: the default. *)
Theorem C14_slotmap_history_partial : forall cf space ops, 0 < block_size cf -> Forall wf_op ops ->
  exists rs sm a, sm_run cf (init_slotmap space) ops = Some (rs, sm) /\
    ahist a_init ops rs a /\
    NoDup (keys_of (kvs sm)) /\
    forall k d, key_ok k -> exists v, slotmap_get cf sm k d = Some v /\
      (pres (am a) k -> exists s, v = Simple s /\ canonical s (cont (am a) k)) /\
      (~ pres (am a) k -> v = d).
Proof.
  intros cf space ops Hcf Hw. destruct (run_sim cf ops Hcf Hw _ _ (sim_init space)) as (rs & sm & a & E & A & S & _).
  exists rs, sm, a. split; auto. split; auto. split; [apply (r_nodup _ _ (so_R _ _ S))|].
  intros k d [Hk _]. destruct (get_spec cf Hcf sm (am a) S k d ltac:(auto)) as (v & Ev & G1 & G2).
  exists v. split; auto. split; auto. intros Hp. destruct (G1 Hp) as (s & -> & R). exists s. split; auto.
  now apply represents_canonical.
Qed.
(** Whatever the operation does to its key, lookups of every other key are the same
    before and after. *)
Theorem C14_other_keys_partial : forall cf space ops rs sm o r sm' k d, 0 < block_size cf ->
  Forall wf_op ops -> reaches cf space ops rs sm -> wf_op o -> sm_step cf sm o = Some (r, sm') ->
  key_ok k -> touched o <> Some k -> slotmap_get cf sm' k d = slotmap_get cf sm k d.
Proof.
  intros cf space ops rs sm o r sm' k d Hcf Hw Hr Ho E Hk Ht.
  destruct (reaches_sim cf space ops rs sm Hcf Hw Hr) as (a & _ & S).
  destruct (step_sim cf sm a o Hcf S Ho) as (r2 & sm2 & a2 & E2 & _ & S2 & F).
  rewrite E in E2. injection E2 as <- <-. destruct S as (M & _), S2 as (M2 & _).
  assert (Vk : vp k) by (apply elt_vp, Hk).
  pose proof (so_R _ _ M) as R1. pose proof (so_R _ _ M2) as R2.
  destruct (keyvals_get_spec k (kvs sm) (R_vp _ _ R1) Vk) as [(i & c & _ & En)|(_ & Hn)].
  - assert (Hin : In (k, c) (kvs sm)) by (eapply nth_error_In; eauto).
    rewrite (get_entry cf sm (am a) M k c d Hin Vk).
    apply (get_entry cf sm' (am a2) M2 k c d); auto. now apply F.
  - rewrite (get_absent cf sm (am a) M k d Hn Vk). apply (get_absent cf sm' (am a2) M2); auto.
    intros Hi. apply in_keys in Hi as [c Hi]. apply F in Hi; auto. apply Hn. eapply keys_in; eauto.
Qed.
(** kno_slotmap_test: a set of values is reported iff it shares one with the key's
    values (the empty set matches only a key holding the empty set). *)
Theorem C14_slotmap_test_partial : forall cf space ops rs sm k e, 0 < block_size cf ->
  Forall wf_op ops -> reaches cf space ops rs sm -> key_ok k -> okval e ->
  exists a v b, ahist a_init ops rs a /\ run cf e = Some v /\ slotmap_test cf sm k v = Some b /\
    (b = true <-> pres (am a) k /\
      ((exists y, den e y /\ cont (am a) k y) \/
       (forall y, ~ den e y) /\ (forall y, ~ cont (am a) k y))).
Proof.
  intros cf space ops rs sm k e Hcf Hw Hr Hk He.
  destruct (reaches_sim cf space ops rs sm Hcf Hw Hr) as (a & A & S & _).
  destruct (okval_run cf e Hcf He) as (v & Ev & V & _).
  destruct (test_spec cf Hcf sm (am a) S k v (den e)) as (b & E & B); auto.
  - apply elt_vp, Hk. - apply He.
  - exists a, v, b. auto.
Qed.
(** In sorted mode the keys are in strictly ascending order, so that binary search
    (kno_sortvec_get) and the linear search of kno_slotmap_get find the same entry. *)
Theorem C14_sorted_lookup : forall cf space ops rs sm k, 0 < block_size cf ->
  Forall wf_op ops -> reaches cf space ops rs sm -> sortbit sm = true -> key_ok k ->
  StronglySorted (fun x y => cons_compare x y = Lt) (keys_of (kvs sm)) /\
  sortvec_get k (kvs sm) = Some (keyvals_get k (kvs sm)).
Proof.
  intros cf space ops rs sm k Hcf Hw Hr Hb Hk.
  destruct (reaches_sim cf space ops rs sm Hcf Hw Hr) as (a & A & S & _).
  pose proof (so_sorted _ _ S Hb) as HS. split; [exact HS|].
  pose proof (so_R _ _ S) as HR. assert (Vk : vp k) by (apply elt_vp, Hk). pose proof (R_vp _ _ HR) as F.
  destruct (sortvec_get_spec k (kvs sm) F HS Vk) as [(i & v & -> & En)|(-> & Hn)],
           (keyvals_get_spec k (kvs sm) F Vk) as [(j & w & -> & En')|(-> & Hn')]; auto.
  - do 2 f_equal. assert (L : i < length (keys_of (kvs sm))).
    { rewrite keys_len. apply nth_error_Some. congruence. }
    apply (proj1 (NoDup_nth_error _) (r_nodup _ _ HR) i j L). unfold keys_of. now rewrite !nth_error_map, En, En'.
  - exfalso. apply Hn'. eapply keys_in, nth_error_In; eauto.
  - exfalso. apply Hn. eapply keys_in, nth_error_In; eauto.
Qed.

(** Outside [key_ok]: strings that differ only after a NUL byte are one key, since
    LISP_EQUAL compares strings with strncmp (C13). *)
Theorem C14_nul_keys_refuted : exists cf sm sm' k k' v, k <> k' /\
  slotmap_store (init_slotmap 0) k v = Some (1%Z, sm) /\
  slotmap_get cf sm k' (Simple (SVal KVOID)) = Some v /\ v <> Simple (SVal KVOID) /\
  slotmap_delete sm k' = Some (1%Z, sm') /\
  slotmap_get cf sm' k (Simple (SVal KVOID)) = Some (Simple (SVal KVOID)).
Proof.
  exists {| small_threshold := 4; big_threshold := 1000; block_size := 16 |}.
  eexists _, _, (VStr [97; 0; 98]%N), (VStr [97; 0; 99]%N), (Simple (SVal (VAtom 6))).
  split; [discriminate|]. split; [reflexivity|]. split; [reflexivity|]. split; [discriminate|]. split; reflexivity.
Qed.

(** ** C19 for slotmaps *)
Theorem C19_slotmap_keys_partial : forall cf space ops rs sm, 0 < block_size cf ->
  Forall wf_op ops -> reaches cf space ops rs sm ->
  exists s, slotmap_keys cf sm = Some (Simple s) /\
    canonical s (fun k => key_ok k /\ ~ forall d, slotmap_get cf sm k d = Some d).
Proof.
  intros cf space ops rs sm Hcf Hw Hr.
  destruct (reaches_sim cf space ops rs sm Hcf Hw Hr) as (a & A & S & _).
  destruct (keys_spec cf Hcf sm (am a) S) as (s & E & R). exists s. split; auto. apply represents_canonical.
  eapply represents_ext; [|exact R]. intros k. pose proof (so_R _ _ S) as HR. split.
  - intros Hp. apply (r_pres _ _ HR) in Hp. assert (Hk := Forall_in _ _ _ (r_keys _ _ HR) Hp). split; auto.
    apply in_keys in Hp as [v Hin]. intros Hd. assert (Vk : vp k) by (apply elt_vp, Hk).
    pose proof (Hd EMPTYV) as E1. pose proof (Hd (Simple (SVal KVOID))) as E2.
    rewrite (get_entry cf sm (am a) S k v _ Hin Vk) in E1. rewrite (get_entry cf sm (am a) S k v _ Hin Vk) in E2.
    rewrite E1 in E2. discriminate.
  - intros [Hk Hd]. assert (Vk : vp k) by (apply elt_vp, Hk).
    destruct (keyvals_get_spec k (kvs sm) (R_vp _ _ HR) Vk) as [(i & c & _ & En)|(_ & Hn)].
    + apply (r_pres _ _ HR). eapply keys_in, nth_error_In; eauto.
    + exfalso. apply Hd. intros d. apply (get_absent cf sm (am a) S); auto.
Qed.
(** kno_slotmap_values: every value of every key, nothing else. *)
Theorem C19_slotmap_values_partial : forall cf space ops rs sm, 0 < block_size cf ->
  Forall wf_op ops -> reaches cf space ops rs sm ->
  exists a v s, ahist a_init ops rs a /\ slotmap_values cf sm = Some v /\ simplify cf v = Some s /\
    canonical s (fun y => exists k, cont (am a) k y).
Proof.
  intros cf space ops rs sm Hcf Hw Hr.
  destruct (reaches_sim cf space ops rs sm Hcf Hw Hr) as (a & A & S & _).
  destruct (values_spec cf Hcf sm (am a) S) as (v & E & (V1 & V2 & V3) & _).
  destruct (simplify_spec cf v Hcf V1) as (s & Es & S1 & S2). exists a, v, s. split; auto. split; auto. split; auto.
  apply represents_canonical. split; auto. intros y. now rewrite S2, V3.
Qed.
Lemma pair_elt k s : elt_ok k -> simple_ok s -> elt_ok (VPair k (toval s)).
Proof.
  intros [[K1 K2] _] Hs. destruct (toval_vp s Hs) as [T1 T2].
  split; [|repeat split; try discriminate]. split.
  - rewrite vok_eq. now rewrite K1, T1.
  - cbn [plain]. now rewrite K2, T2.
Qed.
(** kno_slotmap_assocs, when no value is an accumulator (the pairs of the model hold
    simple values). *)
Theorem C19_slotmap_assocs_partial : forall cf space ops rs sm, 0 < block_size cf ->
  Forall wf_op ops -> reaches cf space ops rs sm ->
  Forall (fun e => exists s, snd e = Simple s) (kvs sm) ->
  exists v, slotmap_assocs cf sm = Some (Simple v) /\
    canonical v (fun x => exists k s, key_ok k /\ x = VPair k (toval s) /\
                   forall d, slotmap_get cf sm k d = Some (Simple s)).
Proof.
  intros cf space ops rs sm Hcf Hw Hr Hsimple.
  destruct (reaches_sim cf space ops rs sm Hcf Hw Hr) as (a & A & S & _).
  pose proof (so_R _ _ S) as HR.
  assert (Mean : forall x, (exists k s, key_ok k /\ x = VPair k (toval s) /\ forall d, slotmap_get cf sm k d = Some (Simple s))
    <-> exists k s, In (k, Simple s) (kvs sm) /\ x = VPair k (toval s)).
  { intros x. split.
    - intros (k & s & Hk & -> & Hg). exists k, s. split; auto. assert (Vk : vp k) by (apply elt_vp, Hk).
      destruct (keyvals_get_spec k (kvs sm) (R_vp _ _ HR) Vk) as [(i & c & _ & En)|(_ & Hn)].
      + assert (Hin : In (k, c) (kvs sm)) by (eapply nth_error_In; eauto).
        specialize (Hg EMPTYV). rewrite (get_entry cf sm (am a) S k c _ Hin Vk) in Hg.
        destruct (Forall_in _ _ _ Hsimple Hin) as [s' Es]. cbn in Es. subst c. congruence.
      + exfalso. pose proof (Hg EMPTYV) as H1. pose proof (Hg (Simple (SVal KVOID))) as H2.
        rewrite (get_absent cf sm (am a) S k _ Hn Vk) in H1. rewrite (get_absent cf sm (am a) S k _ Hn Vk) in H2. rewrite <- H2 in H1. discriminate.
    - intros (k & s & Hin & ->). exists k, s.
      assert (Hk : key_ok k) by (apply (Forall_in _ _ _ (r_keys _ _ HR)); eapply keys_in; eauto).
      split; auto. split; auto. intros d. apply (get_entry cf sm (am a) S k (Simple s)); auto. apply elt_vp, Hk. }
  assert (Ps : exists ps, all_some (map assoc_pair (kvs sm)) = Some (map (fun p => Simple (SVal p)) ps) /\ Forall elt_ok ps /\
     forall x, In x ps <-> exists k s, In (k, Simple s) (kvs sm) /\ x = VPair k (toval s)).
  { assert (G : forall k v, In (k, v) (kvs sm) -> key_ok k /\ lv_ok v).
    { intros k v Hin. split; [apply (Forall_in _ _ _ (r_keys _ _ HR)); eapply keys_in; eauto|now apply (r_cont _ _ HR _ _ Hin)]. }
    clear -Hsimple G. induction Hsimple as [|[k v] l [s Es] Hl IH].
    - exists []. split; auto. split; auto. intros x. split; [intros []|intros (k & s & [] & _)].
    - cbn in Es. subst v. destruct IH as (ps & E & F & M); [intros; apply G; now right|].
      destruct (G k (Simple s) (or_introl eq_refl)) as [[Hk _] Hs].
      exists (VPair k (toval s) :: ps). cbn [map all_some assoc_pair snd fst]. rewrite E. split; auto.
      split; [constructor; auto; now apply pair_elt|]. intros x. cbn [In]. rewrite M. split.
      + intros [<-|(k' & s' & Hin & ->)]; [exists k, s|exists k', s']; auto.
      + intros (k' & s' & [E'|Hin] & ->); [injection E' as -> ->; auto|right; eauto]. }
  destruct Ps as (ps & E & F & M). unfold slotmap_assocs. rewrite E.
  assert (Rep : forall s, represents s (fun x => In x ps) -> canonical s (fun x => exists k s, key_ok k /\ x = VPair k (toval s) /\
                   forall d, slotmap_get cf sm k d = Some (Simple s))).
  { intros s Rs. apply represents_canonical. eapply represents_ext; [|exact Rs]. intros x. now rewrite Mean, M. }
  destruct ps as [|p1 [|p2 ps]].
  - exists (SVal KEMPTY). split; auto. apply Rep. split; [now left|]. intros x. simpl. tauto.
  - exists (SVal p1). split; auto. apply Rep. inversion F; subst. split; [now right|]. intros x. now rewrite selts_elt.
  - set (l := p1 :: p2 :: ps) in *. cbn [map]. change (Simple (SVal p1) :: Simple (SVal p2) :: map (fun p => Simple (SVal p)) ps)
      with (map (fun p => Simple (SVal p)) l). set (vs := map (fun p => Simple (SVal p)) l).
    assert (Ok : Forall lv_ok vs).
    { apply Forall_forall. intros v Hv. apply in_map_iff in Hv as (p & <- & Hp). right. apply (Forall_in _ _ _ F Hp). }
    destruct (add_all_spec cf Hcf vs Ok (init_prechoice (7 * length vs))) as (p & -> & Hp & Ep).
    { apply pre_init. unfold vs, l. simpl. lia. }
    destruct (simplify_spec cf (Pre p) Hcf Hp) as (s & -> & S1 & S2). exists s. split; auto. apply Rep. split; auto.
    intros x. rewrite S2. cbn [lelts]. rewrite Ep. simpl pelts. split.
    + intros [[]|(v & Hv & Hx)]. apply in_map_iff in Hv as (q & <- & Hq). cbn [lelts] in Hx.
      rewrite selts_elt in Hx by (apply (Forall_in _ _ _ F Hq)). destruct Hx as [<-|[]]. exact Hq.
    + intros Hx. right. exists (Simple (SVal x)). split; [now apply (in_map (fun p => Simple (SVal p)))|].
      cbn [lelts]. rewrite selts_elt by (apply (Forall_in _ _ _ F Hx)). now left.
Qed.
(** The key vector: kno_slotmap_keyvec never advances its output index, so a slotmap
    with keys reports none. *)
Definition fx (n : N) : val := VAtom (4 * n + 2).
Lemma fx_neq n w : (w mod 4)%N <> 2%N -> fx n <> VAtom w.
Proof.
  intros H E. apply H. assert (E' : w = (4 * n + 2)%N) by (unfold fx in E; congruence). rewrite E'.
  rewrite N.add_comm, N.mul_comm, N.mod_add by discriminate. reflexivity.
Qed.
Lemma fx_elt n : elt_ok (fx n).
Proof. split; [split; reflexivity|]. repeat split; try discriminate; now apply fx_neq. Qed.
Lemma fx_clean n : clean (fx n).
Proof.
  split; [|now apply fx_neq]. unfold fx. cbn [troublep]. replace ((4 * n + 2) mod 4)%N with 2%N; [reflexivity|].
  rewrite N.add_comm, N.mul_comm, N.mod_add by discriminate. reflexivity.
Qed.
Theorem C19_slotmap_keyvec_refuted : exists cf ops rs sm k v,
  0 < block_size cf /\ Forall wf_op ops /\ reaches cf 0 ops rs sm /\
  key_ok k /\ slotmap_get cf sm k (Simple (SVal KVOID)) = Some (Simple (SVal v)) /\ v <> KVOID /\
  ~ In k (slotmap_keyvec sm).
Proof.
  exists {| small_threshold := 4; big_threshold := 1000; block_size := 16 |}, [OStore (fx 1) (PVal (fx 2))].
  eexists _, _, (fx 1), (fx 2). split; [simpl; lia|]. split.
  - constructor; [|constructor]. split; [right; split; [apply fx_elt|reflexivity]|]. split; [apply fx_elt|].
    cbn. intros y ->. split; [reflexivity|discriminate].
  - split; [reflexivity|]. split; [split; [apply fx_elt|reflexivity]|]. split; [reflexivity|]. split; [discriminate|]. intros [].
Qed.

(** ** A concrete history: six keys, sorted mode switched on in the middle, values
    accumulated and dropped. *)
Definition cfx : config := {| small_threshold := 4; big_threshold := 1000; block_size := 16 |}.
Definition ops_ex : list op :=
  [OStore (fx 5) (PVal (fx 50)); OAdd false (VStr [98; 99]%N) (PVal (fx 1)); OAdd false (fx 3) (PAdd false (PVal (fx 7)) (PVal (VStr [65]%N)));
   OSort true; OAdd false (fx 5) (PVal (fx 51)); OAdd false (fx 4) (PVal (fx 9)); OStore (fx 1) PEmpty;
   ODrop (fx 3) (PVal (fx 7)); ODrop (fx 4) (PVal (fx 9)); OAdd true (fx 9) (PVal (fx 8)); ODelete (VStr [98; 99]%N);
   OReadonly true; OStore (fx 5) (PVal (fx 0))].
Example ex_ops_wf : Forall wf_op ops_ex.
Proof.
  assert (K : forall n, okkey (fx n)) by (intros n; right; split; [apply fx_elt|apply fx_clean]).
  assert (S1 : okkey (VStr [98; 99]%N)) by (right; repeat split; discriminate).
  assert (V : forall n, okval (PVal (fx n))) by (intros n; split; [apply fx_elt|cbn; intros y ->; apply fx_clean]).
  unfold ops_ex. repeat (apply Forall_cons; [cbn [wf_op]; try exact I; try apply K; try exact S1; try (split; [first [apply K|exact S1]|try apply V])|]); [| |apply Forall_nil].
  - split; [split; [apply fx_elt|repeat split; discriminate]|]. cbn. intros y [->| ->]; [apply fx_clean|split; [reflexivity|discriminate]].
  - split; [exact I|intros y []].
Qed.
Example ex_ops_run : exists sm, reaches cfx 2 ops_ex
    [1; 1; 1; 1; 0; 1; 1; 1; 1; 1; 1; 1; -1]%Z sm /\
  keys_of (kvs sm) = [fx 1; fx 3; fx 5; fx 9] /\
  slotmap_get cfx sm (fx 5) EMPTYV = Some (Simple (SChoice true [fx 50; fx 51])) /\
  slotmap_get cfx sm (fx 4) (Simple (SVal KVOID)) = Some (Simple (SVal KVOID)).
Proof. eexists. split; [vm_compute; reflexivity|]. vm_compute. auto. Qed.

Print Assumptions C14_slotmap_history_partial.
Print Assumptions C14_other_keys_partial.
Print Assumptions C14_slotmap_test_partial.
Print Assumptions C14_sorted_lookup.
Print Assumptions C14_nul_keys_refuted.
Print Assumptions C19_slotmap_keys_partial.
Print Assumptions C19_slotmap_values_partial.
Print Assumptions C19_slotmap_assocs_partial.
Print Assumptions C19_slotmap_keyvec_refuted.

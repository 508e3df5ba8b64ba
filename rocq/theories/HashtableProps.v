(** * C16 (and C19 for hashtables): a hashtable is a map from keys to sets of values.

    The specification is the abstract map of TableProofs and the relation [hstep]
    below.  Everything is quantified over the hash function, over the sizes the table is
    created with and over the load factor. *)
From Coq Require Import Lia Permutation Sorting.Sorted List.
From Verif Require Import ValueModel ValueProofs SortModel SortProofs ChoicesModel SlotmapModel
  ChoicesProofs ChoicesProofs2 ChoicesProofs3 ChoicesProps TableProofs SlotmapProofs SlotmapProps
  HashtableModel HashtableProofs.
Import ListNotations.

(** ** Operations *)
Inductive hop :=
| HStore (k : val) (e : prog)
| HAdd (shared : bool) (k : val) (e : prog)
| HDrop (k : val) (e : prog)
| HDropAll (k : val)                  (* kno_hashtable_drop(ht,k,VOID) *)
| HReadonly (flag : bool)             (* hashtable_readonly, tables.c:3100-3115 *)
| HResize (n : N)                     (* kno_resize_hashtable *)
| HReset (n : Z).                     (* kno_reset_hashtable *)
Definition ht_set_ro (ht : hashtable) (b : bool) : hashtable :=
  {| buckets := buckets ht; n_keys := n_keys ht; ht_ro := b |}.
Definition ht_step (hc : hcfg) (cf : config) (ht : hashtable) (o : hop) : option (Z * hashtable) :=
  match o with
  | HStore k e => do v <- run cf e; hashtable_store hc cf ht k v
  | HAdd sh k e => do v <- run cf e; hashtable_add hc cf sh ht k v
  | HDrop k e => do v <- run cf e; hashtable_drop hc cf ht k v
  | HDropAll k => hashtable_drop hc cf ht k (Simple (SVal KVOID))
  | HReadonly b => Some (if ht_ro ht then 1%Z else 0%Z, ht_set_ro ht b)
  | HResize n => do ht' <- resize_hashtable hc ht n; Some (Z.of_N n, ht')
  | HReset n => let ht' := reset_hashtable ht n in Some (Z.of_N (n_buckets ht'), ht')
  end.
Fixpoint ht_run (hc : hcfg) (cf : config) (ht : hashtable) (ops : list hop) : option (list Z * hashtable) :=
  match ops with
  | [] => Some ([], ht)
  | o :: ops =>
    do r <- ht_step hc cf ht o; let (c, ht') := (r : Z * hashtable) in
    do rs <- ht_run hc cf ht' ops; let (cs, ht'') := (rs : list Z * hashtable) in
    Some (c :: cs, ht'')
  end.

(** ** Specification: the abstract map and whether it is read-only. *)
Record hstate := { hm : amap; hro : bool }.
Definition hput (a : hstate) (m : amap) : hstate := {| hm := m; hro := hro a |}.
Definition is_new (a : hstate) (k : val) (r : Z) : Prop :=
  (r = 0%Z /\ pres (hm a) k) \/ (r = 1%Z /\ ~ pres (hm a) k).
Definition was_there (a : hstate) (k : val) (r : Z) : Prop :=
  (r = 1%Z /\ pres (hm a) k) \/ (r = 0%Z /\ ~ pres (hm a) k).
Definition no_keys (a : hstate) : Prop := forall k, ~ pres (hm a) k.
Definition nothing (a : hstate) (r : Z) (a' : hstate) : Prop := r = 0%Z /\ a' = a.
Definition refuse (a : hstate) (r : Z) (a' : hstate) : Prop := r = (-1)%Z /\ a' = a.
Definition hstep (a : hstate) (o : hop) (r : Z) (a' : hstate) : Prop :=
  match o with
  | HStore k e =>
    if emptyp k then nothing a r a'
    else if hro a then refuse a r a'
    else is_new a k r /\ a' = hput a (a_store (hm a) k (den e))
  | HAdd _ k e =>
    if emptyp k then nothing a r a'
    else if hro a then refuse a r a'
    else (nothing a r a' /\ forall y, ~ den e y) \/
         ((exists y, den e y) /\ is_new a k r /\ a' = hput a (a_add (hm a) k (den e)))
  | HDrop k e =>
    if emptyp k then nothing a r a'
    else (hro a = true /\ ~ no_keys a /\ refuse a r a') \/
         ((hro a = true -> no_keys a) /\ was_there a k r /\ a' = hput a (a_drop (hm a) k (den e)))
  | HDropAll k =>
    if emptyp k then nothing a r a'
    else (hro a = true /\ ~ no_keys a /\ refuse a r a') \/
         ((hro a = true -> no_keys a) /\ was_there a k r /\ a' = hput a (a_delete (hm a) k))
  | HReadonly b => r = (if hro a then 1%Z else 0%Z) /\ a' = {| hm := hm a; hro := b |}
  | HResize n => r = Z.of_N n /\ a' = a
  | HReset n => (0 <= n -> r = n)%Z /\ a' = hput a a_empty
  end.
Inductive hhist : hstate -> list hop -> list Z -> hstate -> Prop :=
| hh_nil a : hhist a [] [] a
| hh_cons a o r a1 ops rs a2 : hstep a o r a1 -> hhist a1 ops rs a2 -> hhist a (o :: ops) (r :: rs) a2.
Definition h_init : hstate := {| hm := a_empty; hro := false |}.
Definition wf_hop (o : hop) : Prop :=
  match o with
  | HStore k e | HAdd _ k e | HDrop k e => okkey k /\ okval e
  | HDropAll k => okkey k
  | HResize n => (0 < n)%N
  | _ => True
  end.
(** Configurations: positive initial size below 2^28, load factor in (0,2]. *)
Definition hcfg_ok (hc : hcfg) : Prop :=
  (0 < init_size hc < 2 ^ 28 /\ 0 < load_num hc <= 2 * load_den hc)%N.
(** 73 and 1.2 are the values of the source. *)
Example ex_default_cfg h : hcfg_ok {| hash := h; init_size := 73; load_num := 6; load_den := 5 |}.
Proof. repeat split. discriminate. Qed.

(** ** Simulation *)
Section Sim.
Variable hc : hcfg.
Variable cf : config.
Hypothesis Hcf : cfg_ok cf.
Hypothesis Hsz : hcfg_ok hc.
Definition hsim (ht : hashtable) (a : hstate) : Prop := ht_ok hc ht (hm a) /\ ht_ro ht = hro a.
Definition htouched (o : hop) (k : val) : Prop :=
  match o with HStore k' _ | HAdd _ k' _ | HDrop k' _ | HDropAll k' => k = k' | HReset _ => True | _ => False end.
Definition hframe (o : hop) (ht ht' : hashtable) : Prop :=
  forall k v, ~ htouched o k -> (In (k, v) (concat (buckets ht')) <-> In (k, v) (concat (buckets ht))).
Lemma hframe_refl o ht : hframe o ht ht.
Proof. intros k v _. tauto. Qed.
Lemma hsim_put ht ht' a m : hsim ht a -> ht_ro ht' = ht_ro ht -> ht_ok hc ht' m -> hsim ht' (hput a m).
Proof. intros [_ B] C M. split; cbn; auto. congruence. Qed.
Lemma fresh_new ht a k r : hsim ht a -> h_fresh ht k r -> is_new a k r.
Proof. intros [M _] F. unfold is_new. now rewrite (r_pres _ _ (ho_R _ _ _ M)). Qed.
Lemma found_there ht a k r : hsim ht a -> h_found ht k r -> was_there a k r.
Proof. intros [M _] F. unfold was_there. now rewrite (r_pres _ _ (ho_R _ _ _ M)). Qed.
Lemma keys_zero ht a : hsim ht a -> (n_keys ht = 0%N <-> no_keys a).
Proof.
  intros [M _]. unfold no_keys. pose proof (r_pres _ _ (ho_R _ _ _ M)) as P. rewrite (ho_count _ _ _ M).
  destruct (concat (buckets ht)) as [|[k v] l].
  - split; auto. intros _ k. rewrite P. auto.
  - split; [simpl; lia|]. intros H. exfalso. apply (H k). apply P. now left.
Qed.
Lemma hstep_sim ht a o : hsim ht a -> wf_hop o -> (n_keys ht < 2 ^ 28)%N ->
  exists r ht' a', ht_step hc cf ht o = Some (r, ht') /\ hstep a o r a' /\ hsim ht' a' /\ hframe o ht ht' /\
    (n_keys ht' <= n_keys ht + 1)%N.
Proof.
  intros HS Hw Hb. pose proof HS as [M HRo].
  destruct o as [k e|sh k e|k e|k|b|n|n]; cbn [wf_hop] in Hw; cbn [ht_step hstep].
  - destruct Hw as [Hk Hv]. destruct (okval_run cf e Hcf Hv) as (v & -> & V & T).
    destruct Hk as [->|Hk].
    { exists 0%Z, ht, a. unfold hashtable_store. rewrite T. split; [reflexivity|]. split; [split; reflexivity|]. split; [exact HS|]. split; [apply hframe_refl|lia]. }
    destruct (key_guard k Hk) as [G1 G2]. rewrite G2. destruct (hro a) eqn:Er.
    { exists (-1)%Z, ht, a. unfold hashtable_store. rewrite G1, T, G2, HRo. split; auto. split; [split; auto|]. split; auto. split; [apply hframe_refl|lia]. }
    destruct (h_store_spec hc cf Hcf Hsz ht (hm a) M k v (den e) Hk V (proj2 Hv) HRo Hb) as (r & ht' & E & F & B & M' & Fr & L).
    rewrite E. exists r, ht'. eexists. split; [reflexivity|]. split; [split; [eapply fresh_new; eauto|reflexivity]|].
    split; [now apply (hsim_put ht)|]. split; [intros k' v' Hne; now apply Fr|exact L].
  - destruct Hw as [Hk Hv]. destruct (okval_run cf e Hcf Hv) as (v & -> & V & T).
    destruct Hk as [->|Hk].
    { exists 0%Z, ht, a. split; [reflexivity|]. split; [split; reflexivity|]. split; [exact HS|]. split; [apply hframe_refl|lia]. }
    destruct (key_guard k Hk) as [G1 G2]. rewrite G2. destruct (hro a) eqn:Er.
    { exists (-1)%Z, ht, a. unfold hashtable_add. rewrite G2, HRo. split; auto. split; [split; auto|]. split; auto. split; [apply hframe_refl|lia]. }
    destruct (lemptyp v) eqn:Ee.
    { exists 0%Z, ht, a. unfold hashtable_add. rewrite G2, HRo, Ee. split; [reflexivity|].
      split; [left; split; [split; auto|now apply (vgood_empty _ _ V)]|]. split; auto. split; [apply hframe_refl|lia]. }
    assert (Ne : exists y, den e y).
    { destruct V as (V1 & V2 & V3). destruct (lelts v) as [|y r] eqn:El.
      - exfalso. assert (lemptyp v = true); [|congruence].
        apply (vgood_empty v (den e)); [split; auto; split; auto; now rewrite El|]. intros y Hy. now apply V3 in Hy.
      - exists y. apply V3. now left. }
    destruct (h_add_spec hc cf Hcf Hsz ht (hm a) M sh k v (den e) Hk V (proj2 Hv) HRo Hb Ne) as (r & ht' & E & F & B & M' & Fr & L).
    rewrite E. exists r, ht'. eexists. split; [reflexivity|]. split; [right; split; auto; split; [eapply fresh_new; eauto|reflexivity]|].
    split; [now apply (hsim_put ht)|]. split; [intros k' v' Hne; now apply Fr|exact L].
  - destruct Hw as [Hk Hv]. destruct (okval_run cf e Hcf Hv) as (v & -> & V & T).
    destruct Hk as [->|Hk].
    { exists 0%Z, ht, a. split; [reflexivity|]. split; [split; reflexivity|]. split; [exact HS|]. split; [apply hframe_refl|lia]. }
    destruct (key_guard k Hk) as [G1 G2]. rewrite G2.
    destruct (h_drop_spec hc cf Hcf ht (hm a) M k v (den e) Hk V (proj2 Hv)) as (r & ht' & E & [(Q1 & Q2 & -> & ->)|(Q & F & B & M' & Fr & L)]); rewrite E.
    + exists (-1)%Z, ht, a. split; [reflexivity|]. split; [left; split; [congruence|]; split; [now rewrite <- (keys_zero ht a HS)|split; auto]|].
      split; auto. split; [apply hframe_refl|lia].
    + exists r, ht'. eexists. split; [reflexivity|]. split.
      { right. split; [rewrite <- (keys_zero ht a HS), <- HRo; exact Q|]. split; [eapply found_there; eauto|reflexivity]. }
      split; [now apply (hsim_put ht)|]. split; [|lia]. intros k' v' Hne. now apply Fr.
  - destruct Hw as [->|Hk].
    { exists 0%Z, ht, a. split; [reflexivity|]. split; [split; reflexivity|]. split; [exact HS|]. split; [apply hframe_refl|lia]. }
    destruct (key_guard k Hk) as [G1 G2]. rewrite G2.
    destruct (h_drop_all_spec hc cf ht (hm a) M k Hk) as (r & ht' & E & [(Q1 & Q2 & -> & ->)|(Q & F & B & M' & Fr & L)]); rewrite E.
    + exists (-1)%Z, ht, a. split; [reflexivity|]. split; [left; split; [congruence|]; split; [now rewrite <- (keys_zero ht a HS)|split; auto]|].
      split; auto. split; [apply hframe_refl|lia].
    + exists r, ht'. eexists. split; [reflexivity|]. split.
      { right. split; [rewrite <- (keys_zero ht a HS), <- HRo; exact Q|]. split; [eapply found_there; eauto|reflexivity]. }
      split; [now apply (hsim_put ht)|]. split; [|lia]. intros k' v' Hne. now apply Fr.
  - eexists _, _, _. split; [reflexivity|]. rewrite HRo. split; [split; reflexivity|].
    split; [|split; [intros k' v' _; cbn; tauto|cbn; lia]]. split; cbn; auto. destruct M as [A B C]. now constructor.
  - destruct (resize_spec hc ht (hm a) n M Hw) as (ht' & -> & M' & B & _ & L & P).
    exists (Z.of_N n), ht', a. split; auto. split; [split; auto|]. split; [split; auto; congruence|].
    split; [|lia]. intros k v _. split; apply Permutation_in; [auto|now symmetry].
  - eexists _, _, _. split; [reflexivity|]. split; [split; [|reflexivity]|].
    { intros Hn. unfold reset_hashtable, n_buckets. cbn [buckets]. unfold new_buckets. rewrite repeat_length.
      destruct (Z.ltb_spec n 0); lia. }
    split; [|split; [intros k v Ht; now destruct Ht|cbn; lia]].
    split; auto. constructor; cbn [reset_hashtable buckets n_keys hput hm]; rewrite ?concat_new; auto; [apply R_empty|apply bok_new].
Qed.
Lemma hrun_sim ops : Forall wf_hop ops -> forall ht a, hsim ht a ->
  (n_keys ht + N.of_nat (length ops) <= 2 ^ 28)%N ->
  exists rs ht' a', ht_run hc cf ht ops = Some (rs, ht') /\ hhist a ops rs a' /\ hsim ht' a' /\
    (n_keys ht' <= n_keys ht + N.of_nat (length ops))%N.
Proof.
  induction 1 as [|o ops Ho Hops IH]; intros ht a HS Hb; cbn [ht_run].
  - exists [], ht, a. split; auto. split; [constructor|]. split; auto. lia.
  - cbn [length] in Hb. destruct (hstep_sim ht a o HS Ho) as (r & ht1 & a1 & -> & A & S1 & _ & L); [lia|].
    destruct (IH ht1 a1 S1) as (rs & ht2 & a2 & -> & A2 & S2 & L2); [lia|].
    exists (r :: rs), ht2, a2. split; auto. split; [econstructor; eauto|]. split; auto. cbn [length]. lia.
Qed.
Lemma hsim_init n ht : make_hashtable n = Some ht -> hsim ht h_init /\ n_keys ht = 0%N.
Proof.
  unfold make_hashtable. intros E.
  assert (exists k, ht = {| buckets := new_buckets k; n_keys := 0; ht_ro := false |}) as [k ->].
  { destruct (n =? 0)%Z; [injection E as <-; now exists 0%N|].
    destruct (n <? 0)%Z; [injection E as <-; eauto|].
    destruct (get_hashtable_size (Z.to_N n)); [injection E as <-; eauto|discriminate]. }
  split; auto. split; auto. constructor; cbn [buckets n_keys h_init hm]; rewrite ?concat_new; auto; [apply R_empty|apply bok_new].
Qed.
(** Reachable tables. *)
Definition hreaches (n : Z) (ops : list hop) (rs : list Z) (ht : hashtable) : Prop :=
  (n < 1610612741)%Z /\ (N.of_nat (length ops) < 2 ^ 28)%N /\ Forall wf_hop ops /\
  exists ht0, make_hashtable n = Some ht0 /\ ht_run hc cf ht0 ops = Some (rs, ht).
Lemma hreaches_sim n ops rs ht : hreaches n ops rs ht ->
  exists a, hhist h_init ops rs a /\ hsim ht a /\ (n_keys ht < 2 ^ 28)%N.
Proof.
  intros (_ & Hl & Hw & ht0 & E0 & E). destruct (hsim_init n ht0 E0) as [S0 N0].
  destruct (hrun_sim ops Hw ht0 h_init S0) as (rs' & ht' & a & E' & A & S1 & L); [lia|].
  rewrite E in E'. injection E' as <- <-. exists a. split; auto. split; auto. lia.
Qed.
End Sim.

(** ** C16 *)
(** Every history on a table created with any size runs; its return codes, its lookups
    and its count of keys are those of the abstract map. *)
Theorem C16_hashtable_history_partial : forall hc cf n ops, 0 < block_size cf -> hcfg_ok hc ->
  (n < 1610612741)%Z -> (N.of_nat (length ops) < 2 ^ 28)%N -> Forall wf_hop ops ->
  exists ht0 rs ht a, make_hashtable n = Some ht0 /\ ht_run hc cf ht0 ops = Some (rs, ht) /\
    hhist h_init ops rs a /\
    (exists ks, NoDup ks /\ (forall k, In k ks <-> pres (hm a) k) /\ n_keys ht = N.of_nat (length ks)) /\
    forall k d, key_ok k -> exists v, hashtable_get hc cf ht k d = Some v /\
      (pres (hm a) k -> exists s, v = Simple s /\ canonical s (cont (hm a) k)) /\
      (~ pres (hm a) k -> v = d).
Proof.
  intros hc cf n ops Hcf Hsz Hn Hl Hw.
  assert (exists ht0, make_hashtable n = Some ht0) as [ht0 E0].
  { unfold make_hashtable. destruct (n =? 0)%Z; eauto. destruct (Z.ltb_spec n 0); eauto.
    destruct (sizes_exist (Z.to_N n)) as [s ->]; eauto. lia. }
  destruct (hsim_init hc n ht0 E0) as [S0 N0].
  destruct (hrun_sim hc cf Hcf Hsz ops Hw ht0 h_init S0) as (rs & ht & a & E & A & [M _] & _); [lia|].
  exists ht0, rs, ht, a. split; auto. split; auto. split; auto. split.
  - exists (keys_of (concat (buckets ht))). split; [apply (r_nodup _ _ (ho_R _ _ _ M))|].
    split; [intros k; now rewrite (r_pres _ _ (ho_R _ _ _ M))|]. rewrite keys_len. apply (ho_count _ _ _ M).
  - intros k d Hk. destruct (h_get_spec hc cf Hcf ht (hm a) M k d Hk) as (v & Ev & G1 & G2).
    exists v. split; auto. split; auto. intros Hp. destruct (G1 Hp) as (s & -> & Rs). exists s. split; auto. now apply represents_canonical.
Qed.
(** An operation on one key leaves the lookups of every other key unchanged, also when
    the table is resized. *)
Theorem C16_other_keys_partial : forall hc cf n ops rs ht o r ht' k d, 0 < block_size cf -> hcfg_ok hc ->
  hreaches hc cf n ops rs ht -> wf_hop o -> ht_step hc cf ht o = Some (r, ht') ->
  key_ok k -> ~ htouched o k -> hashtable_get hc cf ht' k d = hashtable_get hc cf ht k d.
Proof.
  intros hc cf n ops rs ht o r ht' k d Hcf Hsz Hr Ho E Hk Ht.
  destruct (hreaches_sim hc cf Hcf Hsz n ops rs ht Hr) as (a & _ & S1 & L).
  destruct (hstep_sim hc cf Hcf Hsz ht a o S1 Ho L) as (r2 & ht2 & a2 & E2 & _ & [M2 _] & F & _).
  rewrite E in E2. injection E2 as <- <-. destruct S1 as [M _].
  destruct (h_in_dec hc ht (hm a) M k) as [Hi|Hn]; [apply Hk| |].
  - apply in_keys in Hi as [c Hin]. rewrite (h_get_entry hc cf ht (hm a) M k c d Hin Hk).
    apply (h_get_entry hc cf ht' (hm a2) M2); auto. now apply F.
  - rewrite (h_get_absent hc cf ht (hm a) M k d Hn Hk). apply (h_get_absent hc cf ht' (hm a2) M2); auto.
    intros Hi. apply in_keys in Hi as [c Hi]. apply F in Hi; auto. apply Hn. eapply keys_in; eauto.
Qed.
(** kno_hashtable_probe and kno_hashtable_test. *)
Theorem C16_probe_and_test_partial : forall hc cf n ops rs ht k e, 0 < block_size cf -> hcfg_ok hc ->
  hreaches hc cf n ops rs ht -> key_ok k -> okval e ->
  exists a b v t, hhist h_init ops rs a /\
    hashtable_probe hc ht k = Some b /\ (b = true <-> pres (hm a) k) /\
    run cf e = Some v /\ hashtable_test hc cf ht k v = Some t /\
    (t = true <-> pres (hm a) k /\
      ((exists y, den e y /\ cont (hm a) k y) \/
       (forall y, ~ den e y) /\ (forall y, ~ cont (hm a) k y))).
Proof.
  intros hc cf n ops rs ht k e Hcf Hsz Hr Hk He.
  destruct (hreaches_sim hc cf Hcf Hsz n ops rs ht Hr) as (a & A & [M _] & _).
  destruct (h_probe_spec hc ht (hm a) M k Hk) as (b & Eb & Hb).
  destruct (okval_run cf e Hcf He) as (v & Ev & V & _).
  destruct (h_test_spec hc cf Hcf ht (hm a) M k v (den e) Hk V (proj2 He)) as (t & Et & Ht).
  exists a, b, v, t. split; [exact A|]. split; [exact Eb|]. split; [exact Hb|]. split; [exact Ev|]. split; [exact Et|exact Ht].
Qed.
(** A key stored with the empty value is counted, found by probe, and reads as empty,
    not as the default. *)
Theorem C16_empty_value : forall hc cf n ops rs ht k, 0 < block_size cf -> hcfg_ok hc ->
  hreaches hc cf n ops rs ht -> ht_ro ht = false -> key_ok k ->
  exists r ht', hashtable_store hc cf ht k EMPTYV = Some (r, ht') /\
    hashtable_probe hc ht' k = Some true /\ forall d, hashtable_get hc cf ht' k d = Some EMPTYV.
Proof.
  intros hc cf n ops rs ht k Hcf Hsz Hr Hro Hk.
  destruct (hreaches_sim hc cf Hcf Hsz n ops rs ht Hr) as (a & A & [M _] & L).
  destruct (h_store_spec hc cf Hcf Hsz ht (hm a) M k EMPTYV (fun _ => False) Hk emptyv_good ltac:(intros _ []) Hro L)
    as (r & ht' & E & _ & _ & M' & _).
  exists r, ht'. split; auto. assert (P : pres (a_store (hm a) k (fun _ => False)) k) by now left. split.
  - destruct (h_probe_spec hc ht' _ M' k Hk) as (b & -> & Hb). f_equal. now apply Hb.
  - intros d. destruct (h_get_spec hc cf Hcf ht' _ M' k d Hk) as (v & -> & G & _).
    destruct (G P) as (s & -> & [S1 S2]). do 2 f_equal.
    assert (El : selts s = []).
    { destruct (selts s) as [|y l] eqn:El; auto. exfalso. assert (Hy : In y (y :: l)) by now left. apply S2 in Hy. cbn in Hy. tauto. }
    destruct s as [v|c l].
    + destruct S1 as [->|S1]; auto. rewrite selts_elt in El by auto. discriminate.
    + destruct S1 as (_ & _ & Hl & _). cbn in El. subst l. simpl in Hl. lia.
Qed.
(** kno_initialize_hashtable (used when a hashtable is read): the entries given, the
    last one for each key. *)
Definition a_inits (l : list (val * prog)) : amap :=
  fold_left (fun m e => a_store m (fst e) (den (snd e))) l a_empty.
Lemma init_entries_modify hc bs n k v es : init_entries hc bs n ((k, v) :: es) =
  (do r <- modify hc bs k (fun _ => Some v); let (bs', inc) := (r : vec * N) in init_entries hc bs' (n + inc) es).
Proof.
  cbn [init_entries]. unfold modify. cbn [fst snd]. destruct (hashvec_insert hc k bs) as [[[[o i] b] inc]|]; auto.
  unfold write_in, value_in, write_value, value_at, key_at. destruct (nth_error b o) as [c|]; auto.
  now destruct (nth_error c i).
Qed.
Lemma init_entries_spec hc cf (Hcf : cfg_ok cf) inits : Forall (fun e => key_ok (fst e) /\ okval (snd e)) inits ->
  forall es, Forall2 (fun e i => fst i = fst e /\ run cf (snd e) = Some (snd i)) inits es ->
  forall bs m, bs <> [] -> ht_ok hc {| buckets := bs; n_keys := N.of_nat (length (concat bs)); ht_ro := false |} m ->
  exists bs', init_entries hc bs (N.of_nat (length (concat bs))) es = Some (bs', N.of_nat (length (concat bs'))) /\
    ht_ok hc {| buckets := bs'; n_keys := N.of_nat (length (concat bs')); ht_ro := false |}
      (fold_left (fun m e => a_store m (fst e) (den (snd e))) inits m).
Proof.
  induction 1 as [|[k e] inits [Hk He] Hi IH]; intros es F bs m Hne H.
  - inversion F; subst. exists bs. auto.
  - inversion F as [|? [k' v] ? es' [E1 E2] F']; subst. cbn [fst snd] in *. subst k'.
    rewrite init_entries_modify. pose proof (ho_R _ _ _ H) as HR. cbn [buckets] in HR.
    destruct (okval_run cf e Hcf He) as (v' & Ev & V & _). rewrite E2 in Ev. injection Ev as <-.
    destruct (modify_spec hc bs k (fun _ => Some v) (ho_bok _ _ _ H) Hne (R_vp _ _ HR) (r_nodup _ _ HR))
      as (bs' & inc & cur & new & -> & [= <-] & _ & U & B & L & Len); [apply Hk|eauto|].
    rewrite <- Len. cbn [fold_left fst snd]. apply IH; auto.
    + destruct bs'; [|discriminate]. destruct bs; [tauto|discriminate].
    + constructor; cbn [buckets n_keys]; auto. apply (R_store _ m k v (den e) _ HR); auto. apply He.
Qed.
Theorem C16_initialize : forall hc cf inits es, 0 < block_size cf ->
  (N.of_nat (length inits) < 1610612741)%N ->
  Forall (fun e => key_ok (fst e) /\ okval (snd e)) inits ->
  Forall2 (fun e i => fst i = fst e /\ run cf (snd e) = Some (snd i)) inits es ->
  exists ht, initialize_hashtable hc es = Some ht /\
    forall k d, key_ok k -> exists v, hashtable_get hc cf ht k d = Some v /\
      (pres (a_inits inits) k -> exists s, v = Simple s /\ canonical s (cont (a_inits inits) k)) /\
      (~ pres (a_inits inits) k -> v = d).
Proof.
  intros hc cf inits es Hcf Hl Hi F. unfold initialize_hashtable.
  assert (Ll : length inits = length es) by (clear -F; induction F; simpl; auto).
  rewrite <- Ll. destruct (sizes_exist _ Hl) as [s Es]. rewrite Es. apply sizes_pos in Es.
  destruct (init_entries_spec hc cf Hcf inits Hi es F (new_buckets s) a_empty) as (bs' & E & M).
  - unfold new_buckets. destruct (N.to_nat s) eqn:En; [lia|discriminate].
  - constructor; cbn [buckets n_keys]; rewrite ?concat_new; auto; [apply R_empty|apply bok_new].
  - rewrite concat_new in E. cbn [length N.of_nat] in E. rewrite E. eexists. split; [reflexivity|].
    intros k d Hk. destruct (h_get_spec hc cf Hcf _ _ M k d Hk) as (v & Ev & G1 & G2).
    exists v. split; auto. split; auto. intros Hp. destruct (G1 Hp) as (s' & -> & Rs). exists s'. split; auto. now apply represents_canonical.
Qed.

(** *** Findings *)
Definition h0 : hcfg := {| hash := fun _ => 0%N; init_size := 73; load_num := 6; load_den := 5 |}.
Definition cf1 : config := {| small_threshold := 4; big_threshold := 1000; block_size := 16 |}.
Definition DF : lv := Simple (SVal KVOID).
(** kno_hashtable_add with a choice of keys: none of the keys gets the value; the choice
    itself becomes a key. *)
Theorem C16_choice_key_refuted : exists hc cf ht0 ht k1 k2 v, make_hashtable 0 = Some ht0 /\
  hashtable_add hc cf false ht0 (VChoice [k1; k2]) v = Some (1%Z, ht) /\
  key_ok k1 /\ key_ok k2 /\
  hashtable_get hc cf ht k1 DF = Some DF /\ hashtable_get hc cf ht k2 DF = Some DF /\
  hashtable_get hc cf ht (VChoice [k1; k2]) DF = Some v /\ v <> DF.
Proof.
  exists h0, cf1. eexists _, _, (fx 1), (fx 2), (Simple (SVal (fx 3))).
  split; [reflexivity|]. split; [vm_compute; reflexivity|].
  split; [split; [apply fx_elt|apply fx_clean]|]. split; [split; [apply fx_elt|apply fx_clean]|].
  split; [vm_compute; reflexivity|]. split; [vm_compute; reflexivity|]. split; [vm_compute; reflexivity|discriminate].
Qed.
(** kno_init_hashtable with initial entries: the keys are there, their values are not. *)
Theorem C16_init_values_refuted : exists hc cf ht k v, key_ok k /\
  init_hashtable hc [(k, Simple (SVal v))] = Some ht /\ v <> KEMPTY /\
  hashtable_get hc cf ht k DF = Some EMPTYV.
Proof.
  exists h0, cf1. eexists _, (fx 1), (fx 2). split; [split; [apply fx_elt|apply fx_clean]|].
  split; [vm_compute; reflexivity|]. split; [discriminate|]. vm_compute. reflexivity.
Qed.
(** kno_swap_hashtable: the destination counts the keys but finds none of them, and the
    source keeps its entries with a count of zero. *)
Theorem C16_swap_refuted : exists hc cf ht0 ht src dest k v, make_hashtable 0 = Some ht0 /\
  hashtable_store hc cf ht0 k v = Some (1%Z, ht) /\ swap_hashtable ht = Some (src, dest) /\
  key_ok k /\ hashtable_get hc cf ht k DF = Some v /\ v <> DF /\
  n_keys dest = 1%N /\ hashtable_get hc cf dest k DF = Some DF /\
  n_keys src = 0%N /\ concat (buckets src) <> [].
Proof.
  exists h0, cf1. eexists _, _, _, _, (fx 1), (Simple (SVal (fx 3))).
  split; [reflexivity|]. split; [vm_compute; reflexivity|]. split; [vm_compute; reflexivity|].
  split; [split; [apply fx_elt|apply fx_clean]|]. split; [vm_compute; reflexivity|]. split; [discriminate|].
  split; [reflexivity|]. split; [vm_compute; reflexivity|]. split; [reflexivity|discriminate].
Qed.
(** kno_hashtable_set_readonly: a table made read-only cannot be made writable again;
    the call reports that there was nothing to do. *)
Theorem C16_set_readonly_refuted :
  set_readonly_bits true false true = (1%Z, (true, false)) /\
  set_readonly_bits false true false = (0%Z, (true, false)).
Proof. split; reflexivity. Qed.
(** kno_get_hashtable_size has no answer from 1610612741 on: its scan leaves the table of
    sizes, which has no end marker. *)
Theorem C16_sizes_refuted : forall n, (1610612741 <= n)%N -> get_hashtable_size n = None.
Proof.
  intros n Hn. unfold get_hashtable_size. destruct (find _ hashtable_sizes) as [s|] eqn:E; auto. exfalso.
  apply find_some in E as [Hin E]. apply N.ltb_lt in E.
  assert (F : Forall (fun s => (s <= 1610612741)%N) hashtable_sizes) by (repeat constructor; discriminate).
  apply (Forall_in _ _ _ F) in Hin. lia.
Qed.

(** ** C19 for hashtables *)
Theorem C19_hashtable_keys_partial : forall hc cf n ops rs ht, 0 < block_size cf -> hcfg_ok hc ->
  hreaches hc cf n ops rs ht ->
  exists s ks, hashtable_keys cf ht = Some (Simple s) /\ hashtable_keyvec ht = Some ks /\
    canonical s (fun k => key_ok k /\ ~ forall d, hashtable_get hc cf ht k d = Some d) /\
    NoDup ks /\ n_keys ht = N.of_nat (length ks) /\
    (forall k, In k ks <-> key_ok k /\ ~ forall d, hashtable_get hc cf ht k d = Some d).
Proof.
  intros hc cf n ops rs ht Hcf Hsz Hr.
  destruct (hreaches_sim hc cf Hcf Hsz n ops rs ht Hr) as (a & A & [M _] & _).
  destruct (h_keys_spec hc cf Hcf ht (hm a) M) as (s & E & Rs).
  destruct (h_keyvec_spec hc ht (hm a) M) as (ks & Ek & Nk & Ck & Pk).
  pose proof (ho_R _ _ _ M) as HR.
  assert (Mean : forall k, pres (hm a) k <-> key_ok k /\ ~ forall d, hashtable_get hc cf ht k d = Some d).
  { intros k. split.
    - intros Hp. apply (r_pres _ _ HR) in Hp. assert (Hk := Forall_in _ _ _ (r_keys _ _ HR) Hp). split; auto.
      apply in_keys in Hp as [v Hin]. intros Hd.
      pose proof (Hd EMPTYV) as E1. pose proof (Hd DF) as E2.
      rewrite (h_get_entry hc cf ht (hm a) M k v _ Hin Hk) in E1. rewrite (h_get_entry hc cf ht (hm a) M k v _ Hin Hk) in E2.
      rewrite E1 in E2. discriminate.
    - intros [Hk Hd]. destruct (h_in_dec hc ht (hm a) M k) as [Hi|Hn]; [apply Hk| |].
      + now apply (r_pres _ _ HR).
      + exfalso. apply Hd. intros d. now apply (h_get_absent hc cf ht (hm a) M). }
  exists s, ks. split; auto. split; auto. split.
  - apply represents_canonical. eapply represents_ext; [|exact Rs]. exact Mean.
  - split; auto. split; auto. intros k. now rewrite Pk, Mean.
Qed.
Theorem C19_hashtable_values_partial : forall hc cf n ops rs ht, 0 < block_size cf -> hcfg_ok hc ->
  hreaches hc cf n ops rs ht ->
  exists a s, hhist h_init ops rs a /\ hashtable_values cf ht = Some (Simple s) /\
    canonical s (fun y => exists k, cont (hm a) k y).
Proof.
  intros hc cf n ops rs ht Hcf Hsz Hr.
  destruct (hreaches_sim hc cf Hcf Hsz n ops rs ht Hr) as (a & A & [M _] & _).
  destruct (h_values_spec hc cf Hcf ht (hm a) M) as (s & E & Rs). exists a, s. split; auto. split; auto.
  now apply represents_canonical.
Qed.
Lemma assoc_pairs l : Forall (fun e => key_ok (fst e) /\ lv_ok (snd e) /\ exists s, snd e = Simple s) l ->
  exists ps, all_some (map assoc_pair l) = Some (map (fun p => Simple (SVal p)) ps) /\ Forall elt_ok ps /\
     length ps = length l /\
     forall x, In x ps <-> exists k s, In (k, Simple s) l /\ x = VPair k (toval s).
Proof.
  induction 1 as [|[k v] l ([Hk _] & Hv & [s Es]) Hl IH].
  - exists []. split; auto. split; auto. split; auto. intros x. split; [intros []|intros (k & s & [] & _)].
  - cbn in Es, Hk, Hv. subst v. destruct IH as (ps & E & F & L & M).
    exists (VPair k (toval s) :: ps). cbn [map all_some assoc_pair snd fst]. rewrite E. split; auto.
    split; [constructor; auto; now apply pair_elt|]. split; [simpl; auto|]. intros x. cbn [In]. rewrite M. split.
    + intros [<-|(k' & s' & Hin & ->)]; [exists k, s|exists k', s']; auto.
    + intros (k' & s' & [E'|Hin] & ->); [injection E' as -> ->; auto|right; eauto].
Qed.
(** kno_hashtable_assocs, when no value is an accumulator. *)
Theorem C19_hashtable_assocs_partial : forall hc cf n ops rs ht, 0 < block_size cf -> hcfg_ok hc ->
  hreaches hc cf n ops rs ht ->
  Forall (fun e => exists s, snd e = Simple s) (concat (buckets ht)) ->
  exists v, hashtable_assocs cf ht = Some (Simple v) /\
    canonical v (fun x => exists k s, key_ok k /\ x = VPair k (toval s) /\
                   forall d, hashtable_get hc cf ht k d = Some (Simple s)).
Proof.
  intros hc cf n ops rs ht Hcf Hsz Hr Hsimple.
  destruct (hreaches_sim hc cf Hcf Hsz n ops rs ht Hr) as (a & A & [M _] & _).
  pose proof (ho_R _ _ _ M) as HR. set (l := concat (buckets ht)) in *.
  destruct (assoc_pairs l) as (ps & E & F & L & Mp).
  { apply Forall_forall. intros [k v] Hin. cbn. split; [apply (Forall_in _ _ _ (r_keys _ _ HR)); eapply keys_in; eauto|].
    split; [now apply (r_cont _ _ HR _ _ Hin)|]. apply (Forall_in _ _ _ Hsimple Hin). }
  unfold hashtable_assocs. rewrite (h_live hc ht (hm a) M). fold l. rewrite E.
  assert (Rep : forall s, represents s (fun x => In x ps) -> canonical s (fun x => exists k s, key_ok k /\ x = VPair k (toval s) /\
                   forall d, hashtable_get hc cf ht k d = Some (Simple s))).
  { intros s Rs. apply represents_canonical. eapply represents_ext; [|exact Rs]. intros x. rewrite Mp. split.
    - intros (k & s' & Hin & ->). exists k, s'.
      assert (Hk : key_ok k) by (apply (Forall_in _ _ _ (r_keys _ _ HR)); eapply keys_in; eauto).
      split; auto. split; auto. intros d. now apply (h_get_entry hc cf ht (hm a) M k (Simple s')).
    - intros (k & s' & Hk & -> & Hg). exists k, s'. split; auto.
      destruct (h_in_dec hc ht (hm a) M k) as [Hi|Hn]; [apply Hk| |].
      + apply in_keys in Hi as [c Hin]. specialize (Hg EMPTYV).
        rewrite (h_get_entry hc cf ht (hm a) M k c _ Hin Hk) in Hg.
        destruct (Forall_in _ _ _ Hsimple Hin) as [s2 Es]. cbn in Es. subst c. injection Hg as ->. exact Hin.
      + exfalso. pose proof (Hg EMPTYV) as G1. pose proof (Hg DF) as G2.
        rewrite (h_get_absent hc cf ht (hm a) M k _ Hn Hk) in G1. rewrite (h_get_absent hc cf ht (hm a) M k _ Hn Hk) in G2. rewrite <- G2 in G1. discriminate. }
  destruct ps as [|p1 ps].
  - assert (Nk : n_keys ht = 0%N) by (rewrite (ho_count _ _ _ M); fold l; rewrite <- L; reflexivity).
    rewrite Nk. exists (SVal KEMPTY). split; [reflexivity|]. apply Rep. split; [now left|]. intros x. simpl. tauto.
  - set (q := p1 :: ps) in *. set (vs := map (fun p => Simple (SVal p)) q).
    assert (Ok : Forall lv_ok vs).
    { apply Forall_forall. intros v Hv. apply in_map_iff in Hv as (p & <- & Hp). right. apply (Forall_in _ _ _ F Hp). }
    destruct (add_all_spec cf Hcf vs Ok (init_prechoice (17 * N.to_nat (n_keys ht)))) as (p & -> & Hp & Ep).
    { apply pre_init. rewrite (ho_count _ _ _ M). fold l. rewrite <- L. unfold q. simpl length. lia. }
    destruct (simplify_spec cf (Pre p) Hcf Hp) as (s & -> & S1 & S2). exists s. split; auto. apply Rep. split; auto.
    intros x. rewrite S2. cbn [lelts]. rewrite Ep. simpl pelts. split.
    + intros [[]|(v & Hv & Hx)]. apply in_map_iff in Hv as (w & <- & Hw). cbn [lelts] in Hx.
      rewrite selts_elt in Hx by (apply (Forall_in _ _ _ F Hw)). destruct Hx as [<-|[]]. exact Hw.
    + intros Hx. right. exists (Simple (SVal x)). split; [now apply (in_map (fun p => Simple (SVal p)))|].
      cbn [lelts]. rewrite selts_elt by (apply (Forall_in _ _ _ F Hx)). now left.
Qed.

(** ** A concrete history: one bucket for all keys (constant hash), seven keys, so that
    lookups search a bucket by bisection; resizing, resetting and read-only mode. *)
Definition hops_ex : list hop :=
  [HStore (fx 5) (PVal (fx 50)); HAdd false (VStr [98; 99]%N) (PVal (fx 1)); HStore (fx 9) (PVal (fx 90));
   HStore (fx 1) PEmpty; HStore (fx 7) (PVal (fx 70)); HAdd false (fx 3) (PVal (fx 30)); HAdd false (fx 5) (PVal (fx 51));
   HResize 7; HDrop (fx 3) (PVal (fx 30)); HDropAll (fx 9); HAdd true (fx 8) (PVal (fx 80)); HDrop (fx 4) (PVal (fx 1));
   HReadonly true; HStore (fx 5) (PVal (fx 0)); HDrop (fx 5) (PVal (fx 50))].
Example ex_hops_wf : Forall wf_hop hops_ex.
Proof.
  assert (K : forall n, okkey (fx n)) by (intros n; right; split; [apply fx_elt|apply fx_clean]).
  assert (S1 : okkey (VStr [98; 99]%N)) by (right; repeat split; discriminate).
  assert (V : forall n, okval (PVal (fx n))) by (intros n; split; [apply fx_elt|cbn; intros y ->; apply fx_clean]).
  assert (E : okval PEmpty) by (split; [exact I|intros y []]).
  unfold hops_ex. repeat (apply Forall_cons; [cbn [wf_hop]; try exact I; try reflexivity; try apply K;
    try (split; [first [apply K|exact S1]|first [apply V|exact E]])|]). apply Forall_nil.
Qed.
Example ex_hops_run : exists ht0 ht, make_hashtable (-2) = Some ht0 /\
  ht_run h0 cf1 ht0 hops_ex = Some ([1; 1; 1; 1; 1; 1; 0; 7; 1; 1; 1; 0; 0; -1; -1]%Z, ht) /\
  n_keys ht = 5%N /\ keys_of (concat (buckets ht)) = [fx 1; fx 5; fx 7; fx 8; VStr [98; 99]%N] /\
  hashtable_get h0 cf1 ht (fx 5) DF = Some (Simple (SChoice true [fx 50; fx 51])) /\
  hashtable_get h0 cf1 ht (fx 1) DF = Some EMPTYV /\
  hashtable_get h0 cf1 ht (fx 9) DF = Some DF.
Proof.
  eexists _, _. split; [reflexivity|]. split; [vm_compute; reflexivity|]. vm_compute. auto 8.
Qed.
Example ex_hreaches : exists rs ht, hreaches h0 cf1 (-2) hops_ex rs ht.
Proof.
  eexists _, _. split; [lia|]. split; [reflexivity|]. split; [exact ex_hops_wf|].
  eexists. split; [reflexivity|]. vm_compute. reflexivity.
Qed.

Print Assumptions C16_hashtable_history_partial.
Print Assumptions C16_other_keys_partial.
Print Assumptions C16_probe_and_test_partial.
Print Assumptions C16_empty_value.
Print Assumptions C16_initialize.
Print Assumptions C16_choice_key_refuted.
Print Assumptions C16_init_values_refuted.
Print Assumptions C16_swap_refuted.
Print Assumptions C16_set_readonly_refuted.
Print Assumptions C16_sizes_refuted.
Print Assumptions C19_hashtable_keys_partial.
Print Assumptions C19_hashtable_values_partial.
Print Assumptions C19_hashtable_assocs_partial.

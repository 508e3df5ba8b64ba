(** * Proofs about slotmaps. *)
From Coq Require Import Lia Permutation Sorting.Sorted List.
From Verif Require Import ValueModel ValueProofs SortModel SortProofs ChoicesModel SlotmapModel
  ChoicesProofs ChoicesProofs2 ChoicesProofs3 TableProofs.
Import ListNotations.

Record sm_ok (sm : slotmap) (m : amap) : Prop := {
  so_R : R (kvs sm) m;
  so_sorted : sortbit sm = true -> ssorted (keys_of (kvs sm));
  so_space : (N.of_nat (length (kvs sm)) <= allocd sm)%N;
}.
Lemma keys_len {V} (l : list (val * V)) : length (keys_of l) = length l.
Proof. apply map_length. Qed.
Lemma nth_keys {V} (l : list (val * V)) i k : nth_error (keys_of l) i = Some k -> exists v, nth_error l i = Some (k, v).
Proof.
  unfold keys_of. rewrite nth_error_map. destruct (nth_error l i) as [[k' v]|]; cbn; [|discriminate].
  intros [= ->]. eauto.
Qed.
Lemma keys_insert {V} i k (v : V) l : keys_of (insert_at i (k, v) l) = insert_at i k (keys_of l).
Proof. unfold insert_at, keys_of. rewrite map_app. cbn [map fst]. now rewrite firstn_map, skipn_map. Qed.
Lemma keys_set {V} i k (v w : V) (l : list (val * V)) : nth_error l i = Some (k, w) ->
  keys_of (set_at i (k, v) l) = keys_of l.
Proof.
  intros E. rewrite (nth_split_at _ _ _ E) at 2. unfold set_at, keys_of. now rewrite !map_app.
Qed.
Lemma nth_insert {A} i (x : A) l : i <= length l -> nth_error (insert_at i x l) i = Some x.
Proof.
  intros H. unfold insert_at. rewrite nth_error_app2; rewrite firstn_length_le by auto; [|lia].
  now rewrite Nat.sub_diag.
Qed.
Lemma set_insert {A} i (x y : A) l : i <= length l -> set_at i y (insert_at i x l) = insert_at i y l.
Proof.
  revert i. induction l as [|a l IH]; intros [|i] H; try reflexivity; [simpl in H; lia|].
  change (a :: set_at i y (insert_at i x l) = a :: insert_at i y l). f_equal. apply IH. simpl in H. lia.
Qed.
Lemma remove_in {A} i (l : list A) x : In x (remove_at i l) -> In x l.
Proof.
  revert i. induction l as [|a l IH]; intros [|i]; cbn; auto. intros [|H]; auto. right. now apply (IH i).
Qed.
Lemma ssorted_remove i l : ssorted l -> ssorted (remove_at i l).
Proof.
  intros S. revert i. induction S as [|a l S IH G]; intros [|i]; try (constructor; fail); [exact S|].
  change (ssorted (a :: remove_at i l)). constructor; [apply IH|].
  apply Forall_forall. intros x Hx. apply (Forall_in _ _ _ G). now apply remove_in in Hx.
Qed.
Lemma keys_remove {V} i (l : list (val * V)) : keys_of (remove_at i l) = remove_at i (keys_of l).
Proof. unfold remove_at, keys_of. now rewrite map_app, firstn_map, skipn_map. Qed.
Lemma remove_len {A} i (l : list A) : length (remove_at i l) <= length l.
Proof.
  unfold remove_at. rewrite app_length, skipn_length. rewrite <- (firstn_skipn i l) at 3.
  rewrite app_length, skipn_length. lia.
Qed.
Lemma set_len_at {A} i (x y : A) l : nth_error l i = Some y -> length (set_at i x l) = length l.
Proof.
  revert i. induction l as [|a l IH]; intros [|i] H; try discriminate; try reflexivity.
  change (S (length (set_at i x l)) = S (length l)). f_equal. now apply IH.
Qed.

(** Insertion: the key is found or put in with the empty value. *)
Lemma sm_insert_spec sm m key : sm_ok sm m -> key_ok key ->
  (exists i v sm', sm_insert sm key = Some (Some i, sm') /\ sm' = sm /\ nth_error (kvs sm) i = Some (key, v)) \/
  (~ In key (keys_of (kvs sm)) /\
   ((exists i sm', sm_insert sm key = Some (Some i, sm') /\ i <= length (kvs sm) /\
       kvs sm' = insert_at i (key, EMPTYV) (kvs sm) /\
       sortbit sm' = sortbit sm /\ readonly sm' = readonly sm /\
       (N.of_nat (S (length (kvs sm))) <= allocd sm')%N /\
       (sortbit sm = true -> ssorted (keys_of (kvs sm')))) \/
    (sm_insert sm key = Some (None, sm) /\ sortbit sm = false /\ (32767 <= N.of_nat (length (kvs sm)))%N))).
Proof.
  intros [HR HS HA] [Hk _]. pose proof (R_vp _ _ HR) as F. assert (Vk : vp key) by auto.
  unfold sm_insert. destruct sm as [l space sb ro]; cbn [kvs allocd sortbit readonly] in *.
  destruct sb.
  - specialize (HS eq_refl). unfold sortvec_insert. destruct (Z.eqb_spec (Z.of_nat (length l)) 0) as [Z0|Z0].
    + destruct l; [|simpl in Z0; lia]. cbn. right. split; [auto|]. left. eexists 0, _. split; [reflexivity|]. cbn. repeat (split; auto).
      * destruct (N.ltb_spec 0 space); lia. * intros _. repeat constructor.
    + destruct (ranks_exist _ key F HS Vk) as (p & q & Rk & He & Hn).
      assert (Rk' := Rk). apply (ranks_ext _ (kcmp key)) in Rk'; [|intros; now rewrite kcmp_cons].
      assert (Hl : length (keys_of l) = length l) by apply keys_len. assert (Hq := Rk). destruct Hq as (Q1 & Q2 & _).
      destruct (bs_loop_spec _ _ p q Rk' (S (length l)) 0 (Z.of_nat (length l) - 1) (Z.of_nat (length l) / 2) 0) as
        [(E & b' & ->)|(E & m' & d' & -> & D)]; try lia.
      * left. specialize (He E). rewrite Nat2Z.id. cbn [Z.eqb]. apply nth_keys in He as [v En].
        exists p, v. eexists. split; [reflexivity|]. split; auto.
      * right. split; [now apply Hn|]. left. replace (d' =? 0)%Z with false by (symmetry; apply Z.eqb_neq; lia).
        assert (Hi : Z.to_nat (if (d' <? 0)%Z then m' else (m' + 1)%Z) = p).
        { destruct D as [[-> D]|[-> D]]; cbn [Z.ltb Z.compare]; lia. }
        rewrite Hi. exists p. eexists. split; [reflexivity|]. cbn [kvs allocd sortbit readonly].
        split; [lia|]. split; [reflexivity|]. split; auto. split; auto. split.
        -- destruct (N.ltb_spec (N.of_nat (length l)) space); lia.
        -- intros _. rewrite keys_insert. subst q. now apply ranks_insert.
  - unfold keyvals_insert. destruct (keyvals_get_spec key l F Vk) as [(i & v & -> & Hn)|(-> & Hn)].
    + left. exists i, v. eexists. split; [reflexivity|]. split; auto.
    + right. split; auto.
      assert (Hins : l ++ [(key, EMPTYV)] = insert_at (length l) (key, EMPTYV) l).
      { unfold insert_at. rewrite firstn_all, skipn_all. reflexivity. }
      destruct (N.ltb_spec (N.of_nat (length l)) space).
      * left. exists (length l). eexists. split; [reflexivity|]. cbn. repeat (split; auto); try lia; try discriminate.
      * destruct (N.ltb_spec space SHRT_MAX) as [Hs|Hs].
        -- left. exists (length l). eexists. split; [reflexivity|]. cbn. repeat (split; auto); try lia; try discriminate.
        -- right. split; [reflexivity|]. split; auto. unfold SHRT_MAX in Hs. lia.
Qed.

Definition full (sm : slotmap) (k : val) : Prop :=
  ~ In k (keys_of (kvs sm)) /\ sortbit sm = false /\ (32767 <= N.of_nat (length (kvs sm)))%N.
Definition same_bits (sm sm' : slotmap) : Prop := sortbit sm' = sortbit sm /\ readonly sm' = readonly sm.
Definition fresh_code (sm : slotmap) (k : val) (r : Z) : Prop :=
  (r = 0%Z /\ In k (keys_of (kvs sm))) \/ (r = 1%Z /\ ~ In k (keys_of (kvs sm))).

Lemma write_value_eq l i k v w : nth_error l i = Some (k, v) -> write_value l i w = Some (set_at i (k, w) l).
Proof. intros E. unfold write_value, key_at. now rewrite E. Qed.

(** Writing [new], computed from the current value (the empty value for a new key). *)
Lemma store_core sm m key (f : lv -> option lv) : sm_ok sm m -> key_ok key ->
  (forall cur, In (key, cur) (kvs sm) \/ (~ In key (keys_of (kvs sm)) /\ cur = EMPTYV) -> exists new, f cur = Some new) ->
  let res := (do r <- sm_insert sm key;
    let (pos, sm') := (r : option nat * slotmap) in
    match pos with
    | None => Some ((-1)%Z, sm)
    | Some i =>
      do cur <- value_at (kvs sm') i;
      do new <- f cur;
      do l <- write_value (kvs sm') i new;
      Some (if (length (kvs sm) =? length (kvs sm'))%nat then 0%Z else 1%Z, sm_set sm' l)
    end) in
  (res = Some ((-1)%Z, sm) /\ full sm key) \/
  exists r sm' cur new, res = Some (r, sm') /\ fresh_code sm key r /\ same_bits sm sm' /\
    (In (key, cur) (kvs sm) \/ ~ In key (keys_of (kvs sm)) /\ cur = EMPTYV) /\ f cur = Some new /\
    upd (kvs sm) key (Some new) (kvs sm') /\
    (sortbit sm' = true -> ssorted (keys_of (kvs sm'))) /\
    (N.of_nat (length (kvs sm')) <= allocd sm')%N.
Proof.
  intros H Hk Hf. pose proof (so_R _ _ H) as HR. pose proof (r_nodup _ _ HR) as N.
  destruct (sm_insert_spec sm m key H Hk) as [(i & v & sm' & -> & -> & En)|(Hn & [(i & sm' & -> & Hi & Ek & Hb & Hro & Ha & Hs)|(-> & Hb & Hl)])]; cbv zeta.
  - right. assert (Hin : In (key, v) (kvs sm)) by (eapply nth_error_In; eauto).
    destruct (Hf v (or_introl Hin)) as [new Ef]. unfold value_at. rewrite En. cbn [snd]. rewrite Ef.
    rewrite (write_value_eq _ _ _ _ _ En), Nat.eqb_refl.
    eexists _, _, v, new. split; [reflexivity|]. split; [left; split; auto; eapply keys_in; eauto|].
    split; [now split|]. split; auto. split; auto. cbn [kvs sm_set sortbit allocd]. split; [eapply set_upd; eauto|].
    split; [rewrite (keys_set _ _ _ _ _ En); apply (so_sorted _ _ H)|].
    rewrite (set_len_at _ _ _ _ En). apply (so_space _ _ H).
  - right. destruct (Hf EMPTYV (or_intror (conj Hn eq_refl))) as [new Ef].
    assert (En : nth_error (kvs sm') i = Some (key, EMPTYV)) by (rewrite Ek; now apply nth_insert).
    unfold value_at. rewrite En. cbn [snd]. rewrite Ef. rewrite (write_value_eq _ _ _ _ _ En).
    assert (L : length (kvs sm') = S (length (kvs sm))).
    { rewrite Ek. apply (Permutation_length (insert_perm i (key, EMPTYV) (kvs sm))). }
    replace (length (kvs sm) =? length (kvs sm'))%nat with false by (symmetry; apply Nat.eqb_neq; lia).
    eexists _, _, EMPTYV, new. split; [reflexivity|]. split; [right; auto|]. split; [split; auto|].
    split; [right; auto|]. split; auto. cbn [kvs sm_set sortbit allocd]. split; [|split].
    + rewrite Ek, set_insert by auto. now apply insert_upd.
    + rewrite (keys_set _ _ _ _ _ En). rewrite Hb. auto.
    + rewrite (set_len_at _ _ _ _ En), L. exact Ha.
  - left. split; auto. split; auto.
Qed.

Section Ops.
Variable cf : config.
Hypothesis Hcf : cfg_ok cf.
Variables (sm : slotmap) (m : amap).
Hypothesis H : sm_ok sm m.

Lemma key_guard k : key_ok k -> troublep k = false /\ emptyp k = false.
Proof. intros [E T]. split; auto. now apply elt_nonempty. Qed.
Lemma add_value_spec shared k v P cur : vgood v P -> (forall y, P y -> clean y) ->
  In (k, cur) (kvs sm) \/ ~ In k (keys_of (kvs sm)) /\ cur = EMPTYV ->
  exists new, (if lvoidp cur || lunboundp cur then Some v else add_to_choice cf shared cur v) = Some new /\
    vgood new (fun y => cont m k y \/ P y).
Proof.
  intros V Cl Hc. pose proof (so_R _ _ H) as HR.
  assert (Vc : vgood cur (cont m k) /\ (forall y, cont m k y -> clean y)).
  { destruct Hc as [Hc|[Hn ->]].
    - split; [now apply (r_cont _ _ HR)|]. intros y Hy. now apply (r_sub _ _ HR) in Hy.
    - destruct (R_absent _ _ _ HR Hn) as [_ A]. split.
      + destruct emptyv_good as (A1 & A2 & A3). split; auto. split; auto. intros x. rewrite A3. split; [tauto|]. apply A.
      + intros y Hy. now apply A in Hy. }
  destruct Vc as [Vc Cc]. destruct (vgood_clean _ _ Vc Cc) as (_ & -> & ->). cbn [orb].
  destruct Vc as (C1 & C2 & C3), V as (V1 & V2 & V3).
  destruct (add_to_choice_spec cf shared cur v Hcf C1 C2 V1 V2) as (r & -> & R1 & R2 & R3).
  exists r. split; auto. split; auto. split; auto. intros y. now rewrite R3, C3, V3.
Qed.

Lemma store_spec k v P : key_ok k -> vgood v P -> (forall y, P y -> clean y) -> readonly sm = false ->
  (slotmap_store sm k v = Some ((-1)%Z, sm) /\ full sm k) \/
  exists r sm', slotmap_store sm k v = Some (r, sm') /\ fresh_code sm k r /\ same_bits sm sm' /\
    sm_ok sm' (a_store m k P) /\ (forall k' v', k' <> k -> (In (k', v') (kvs sm') <-> In (k', v') (kvs sm))).
Proof.
  intros Hk V Cl Hro. unfold slotmap_store. destruct (key_guard k Hk) as [-> ->].
  destruct (vgood_clean _ _ V Cl) as (-> & _ & _). rewrite Hro.
  pose proof (store_core sm m k (fun _ => Some v) H Hk ltac:(eauto)) as C. cbv zeta in C.
  assert (Eq : forall r : option nat * slotmap, (let (pos, sm') := r in
      match pos with
      | None => Some ((-1)%Z, sm)
      | Some i => do l <- write_value (kvs sm') i v;
        Some (if (length (kvs sm) =? length (kvs sm'))%nat then 0%Z else 1%Z, sm_set sm' l)
      end) = (let (pos, sm') := r in
      match pos with
      | None => Some ((-1)%Z, sm)
      | Some i => do cur <- value_at (kvs sm') i; do new <- Some v; do l <- write_value (kvs sm') i new;
        Some (if (length (kvs sm) =? length (kvs sm'))%nat then 0%Z else 1%Z, sm_set sm' l)
      end)).
  { intros [[i|] sm']; auto. unfold write_value, key_at, value_at. destruct (nth_error (kvs sm') i); reflexivity. }
  assert (Eq' : (do r <- sm_insert sm k; (let (pos, sm') := (r : option nat * slotmap) in
      match pos with
      | None => Some ((-1)%Z, sm)
      | Some i => do l <- write_value (kvs sm') i v;
        Some (if (length (kvs sm) =? length (kvs sm'))%nat then 0%Z else 1%Z, sm_set sm' l)
      end)) = (do r <- sm_insert sm k; (let (pos, sm') := (r : option nat * slotmap) in
      match pos with
      | None => Some ((-1)%Z, sm)
      | Some i => do cur <- value_at (kvs sm') i; do new <- Some v; do l <- write_value (kvs sm') i new;
        Some (if (length (kvs sm) =? length (kvs sm'))%nat then 0%Z else 1%Z, sm_set sm' l)
      end))).
  { destruct (sm_insert sm k) as [r|]; [apply Eq|reflexivity]. }
  rewrite Eq'. clear Eq Eq'. destruct C as [C|(r & sm' & cur & new & E & F & B & _ & En & U & S & A)]; [left; exact C|].
  right. injection En as <-. exists r, sm'. split; [exact E|]. split; auto. split; auto. split.
  - constructor; auto. apply (R_store (kvs sm) m k v P); auto. apply (so_R _ _ H).
  - apply U.
Qed.

Lemma add_spec shared k v P : key_ok k -> vgood v P -> (forall y, P y -> clean y) -> readonly sm = false ->
  (exists y, P y) ->
  (slotmap_add cf shared sm k v = Some ((-1)%Z, sm) /\ full sm k) \/
  exists r sm', slotmap_add cf shared sm k v = Some (r, sm') /\ fresh_code sm k r /\ same_bits sm sm' /\
    sm_ok sm' (a_add m k P) /\ (forall k' v', k' <> k -> (In (k', v') (kvs sm') <-> In (k', v') (kvs sm))).
Proof.
  intros Hk V Cl Hro Ne. unfold slotmap_add. destruct (key_guard k Hk) as [-> ->].
  destruct (vgood_clean _ _ V Cl) as (-> & _ & _). rewrite Hro.
  destruct (lemptyp v) eqn:Ee.
  { destruct Ne as [y Hy]. exfalso. now apply (proj1 (vgood_empty v P V) Ee y). }
  destruct (store_core sm m k (fun cur => if lvoidp cur || lunboundp cur then Some v else add_to_choice cf shared cur v) H Hk)
    as [C|(r & sm' & cur & new & E & F & B & Hc & En & U & S & A)].
  - intros cur Hc. destruct (add_value_spec shared k v P cur V Cl Hc) as (new & E & _). eauto.
  - left. exact C.
  - right. destruct (add_value_spec shared k v P cur V Cl Hc) as (new' & E' & G). rewrite E' in En. injection En as <-.
    exists r, sm'. split; [exact E|]. split; auto. split; auto. split.
    + constructor; auto. apply (R_add (kvs sm) m k new' P); auto. apply (so_R _ _ H).
    + apply U.
Qed.
Lemma add_empty shared k v : troublep k = false -> trouble v = false -> lemptyp v = true ->
  slotmap_add cf shared sm k v = Some (0%Z, sm).
Proof. intros T1 T2 E. unfold slotmap_add. rewrite T1, T2, E. now destruct (emptyp k). Qed.

Lemma set_ok i k v w m' : nth_error (kvs sm) i = Some (k, v) -> R (set_at i (k, w) (kvs sm)) m' ->
  sm_ok (sm_set sm (set_at i (k, w) (kvs sm))) m'.
Proof.
  intros En HR. constructor; auto; cbn [kvs sm_set sortbit allocd].
  - rewrite (keys_set _ _ _ _ _ En). apply (so_sorted _ _ H).
  - rewrite (set_len_at _ _ _ _ En). apply (so_space _ _ H).
Qed.
Lemma remove_ok i m' : R (remove_at i (kvs sm)) m' -> sm_ok (sm_set sm (remove_at i (kvs sm))) m'.
Proof.
  intros HR. constructor; auto; cbn [kvs sm_set sortbit allocd].
  - intros Hb. rewrite keys_remove. apply ssorted_remove. now apply (so_sorted _ _ H).
  - pose proof (remove_len i (kvs sm)). pose proof (so_space _ _ H). lia.
Qed.
Definition found_code k (r : Z) : Prop :=
  (r = 1%Z /\ In k (keys_of (kvs sm))) \/ (r = 0%Z /\ ~ In k (keys_of (kvs sm))).

Lemma drop_spec k v P : key_ok k -> vgood v P -> (forall y, P y -> clean y) -> readonly sm = false ->
  exists r sm', slotmap_drop cf sm k v = Some (r, sm') /\ found_code k r /\ same_bits sm sm' /\
    sm_ok sm' (a_drop m k P) /\ (forall k' v', k' <> k -> (In (k', v') (kvs sm') <-> In (k', v') (kvs sm))).
Proof.
  intros Hk V Cl Hro. pose proof (so_R _ _ H) as HR. pose proof (r_nodup _ _ HR) as N.
  unfold slotmap_drop. destruct (key_guard k Hk) as [-> ->].
  destruct (vgood_clean _ _ V Cl) as (-> & -> & _). rewrite Hro.
  destruct (keyvals_get_spec k (kvs sm) (R_vp _ _ HR)) as [(i & cur & -> & En)|(-> & Hn)]; [apply Hk| |].
  - assert (Hin : In (k, cur) (kvs sm)) by (eapply nth_error_In; eauto).
    assert (Kin : In k (keys_of (kvs sm))) by (eapply keys_in; eauto).
    unfold value_at. rewrite En. cbn [snd].
    destruct (r_cont _ _ HR _ _ Hin) as (C1 & C2 & C3), V as (V1 & V2 & V3).
    destruct (difference_spec cf cur v Hcf C1 V1) as (new & -> & D1 & D2 & D3).
    assert (G : vgood new (fun y => cont m k y /\ ~ P y)).
    { split; auto. split; auto. intros y. now rewrite D3, C3, V3. }
    destruct (lemptyp new) eqn:Ee.
    + eexists _, _. split; [reflexivity|]. split; [left; auto|]. split; [now split|].
      pose proof (remove_upd _ _ _ _ N En) as U. split; [|apply U].
      apply remove_ok. apply (R_drop_none (kvs sm)); auto. now apply (vgood_empty _ _ G).
    + rewrite (write_value_eq _ _ _ _ _ En).
      eexists _, _. split; [reflexivity|]. split; [left; auto|]. split; [now split|].
      pose proof (set_upd _ _ _ _ new N En) as U. split; [|apply U].
      apply (set_ok _ _ cur); auto. apply (R_drop_some (kvs sm) m k new); auto.
      * now apply (r_pres _ _ HR).
      * apply (vgood_lelts _ _ G). intros E. apply (vgood_empty _ _ G) in E. congruence.
  - eexists _, _. split; [reflexivity|]. split; [right; auto|]. split; [now split|]. split; [|tauto].
    destruct H as [A B C]. constructor; auto. now apply R_drop_absent.
Qed.
Lemma drop_all_spec k : key_ok k -> readonly sm = false ->
  exists r sm', slotmap_drop cf sm k (Simple (SVal KVOID)) = Some (r, sm') /\ found_code k r /\ same_bits sm sm' /\
    sm_ok sm' (a_delete m k) /\ (forall k' v', k' <> k -> (In (k', v') (kvs sm') <-> In (k', v') (kvs sm))).
Proof.
  intros Hk Hro. pose proof (so_R _ _ H) as HR. pose proof (r_nodup _ _ HR) as N.
  unfold slotmap_drop. destruct (key_guard k Hk) as [-> ->]. rewrite Hro.
  change (trouble (Simple (SVal KVOID))) with false. cbv iota.
  destruct (keyvals_get_spec k (kvs sm) (R_vp _ _ HR)) as [(i & cur & -> & En)|(-> & Hn)]; [apply Hk| |].
  - assert (Kin : In k (keys_of (kvs sm))) by (eapply keys_in, nth_error_In; eauto).
    unfold value_at. rewrite En. cbn [snd lvoidp voidp].
    eexists _, _. split; [reflexivity|]. split; [left; auto|]. split; [now split|].
    pose proof (remove_upd _ _ _ _ N En) as U. split; [|apply U].
    apply remove_ok. now apply (R_delete (kvs sm)).
  - eexists _, _. split; [reflexivity|]. split; [right; auto|]. split; [now split|]. split; [|tauto].
    destruct H as [A B C]. constructor; auto. now apply R_delete_absent.
Qed.
Lemma delete_spec k : key_ok k -> readonly sm = false ->
  exists r sm', slotmap_delete sm k = Some (r, sm') /\ found_code k r /\ same_bits sm sm' /\
    sm_ok sm' (a_delete m k) /\ (forall k' v', k' <> k -> (In (k', v') (kvs sm') <-> In (k', v') (kvs sm))).
Proof.
  intros Hk Hro. pose proof (so_R _ _ H) as HR. pose proof (r_nodup _ _ HR) as N.
  unfold slotmap_delete. destruct (key_guard k Hk) as [-> ->]. rewrite Hro.
  destruct (keyvals_get_spec k (kvs sm) (R_vp _ _ HR)) as [(i & cur & -> & En)|(-> & Hn)]; [apply Hk| |].
  - assert (Kin : In k (keys_of (kvs sm))) by (eapply keys_in, nth_error_In; eauto).
    eexists _, _. split; [reflexivity|]. split; [left; auto|]. split; [now split|].
    pose proof (remove_upd _ _ _ _ N En) as U. split; [|apply U].
    apply remove_ok. now apply (R_delete (kvs sm)).
  - eexists _, _. split; [reflexivity|]. split; [right; auto|]. split; [now split|]. split; [|tauto].
    destruct H as [A B C]. constructor; auto. now apply R_delete_absent.
Qed.

Lemma sort_keyvals_spec l : Forall vp (keys_of l) -> NoDup (keys_of l) ->
  exists l', sort_keyvals l = Some l' /\ Permutation l l' /\ ssorted (keys_of l').
Proof.
  intros F N. unfold sort_keyvals. set (a := forallb _ l).
  assert (Fa : Forall (fun e : keyval => vp (fst e) /\ aok a (fst e)) l).
  { apply Forall_forall. intros [k v] Hin. split.
    - apply (Forall_in _ _ _ F). eapply keys_in; eauto.
    - unfold a. intros E. rewrite forallb_forall in E. apply (E _ Hin). }
  destruct (sort_vec_spec (kv_cmp a) (fun e => vp (fst e) /\ aok a (fst e)) (fun x y => cons_compare (fst x) (fst y)))
    with (check := false) (v := l) as (l' & E & P & S); auto.
  - intros x y [] []. now apply choice_cmp_ok.
  - intros x y [] []. now apply cmp_opp.
  - intros x y z [] [] []. now apply cle_trans.
  - exists l'. split; auto. split; auto.
    assert (N' : NoDup (keys_of l')) by (eapply Permutation_NoDup; [|exact N]; now apply Permutation_map).
    assert (F' : Forall vp (keys_of l')) by (eapply Permutation_Forall; [|exact F]; now apply Permutation_map).
    clear -S N' F'. induction S as [|[k v] l S IH G]; [constructor|]. cbn in N', F' |- *.
    inversion N' as [|? ? Hn N2]; inversion F' as [|? ? Hv F2]; subst. constructor; [now apply IH|].
    apply Forall_forall. intros x Hx. pose proof Hx as Hx'. apply in_keys in Hx as [w Hx].
    pose proof (Forall_in _ _ _ G Hx) as L. unfold SortProofs.le in L. cbn in L.
    apply cle_cases in L; auto; [|eapply Forall_in; eauto]. destruct L as [L| ->]; auto. tauto.
Qed.
Lemma sort_spec b : exists r sm', sort_slotmap sm b = Some (r, sm') /\
  sortbit sm' = b /\ readonly sm' = readonly sm /\ sm_ok sm' m /\
  r = (if Bool.eqb b (sortbit sm) then 0%Z else 1%Z) /\ Permutation (kvs sm) (kvs sm').
Proof.
  unfold sort_slotmap. destruct b; cbn [negb].
  - destruct (sortbit sm) eqn:B; cbn [Bool.eqb].
    + eexists _, _. split; [reflexivity|]. auto 6.
    + destruct (sort_keyvals_spec (kvs sm)) as (l & -> & P & S).
      * apply (R_vp _ _ (so_R _ _ H)). * apply (r_nodup _ _ (so_R _ _ H)).
      * eexists _, _. split; [reflexivity|]. cbn. split; auto. split; auto. split; auto.
        constructor; cbn; auto.
        -- eapply R_perm; [apply (so_R _ _ H)|auto].
        -- rewrite <- (Permutation_length P). apply (so_space _ _ H).
  - eexists _, _. split; [reflexivity|]. cbn. split; auto. split; auto.
    split; [constructor; cbn; [apply (so_R _ _ H)|discriminate|apply (so_space _ _ H)]|]. split; auto.
    destruct (sortbit sm); auto.
Qed.

(** ** Lookup *)
Lemma get_spec k d : vp k ->
  exists v, slotmap_get cf sm k d = Some v /\
    (pres m k -> exists s, v = Simple s /\ represents s (cont m k)) /\ (~ pres m k -> v = d).
Proof.
  intros Hk. pose proof (so_R _ _ H) as HR. unfold slotmap_get.
  destruct (keyvals_get_spec k (kvs sm) (R_vp _ _ HR) Hk) as [(i & cur & -> & En)|(-> & Hn)].
  - assert (Hin : In (k, cur) (kvs sm)) by (eapply nth_error_In; eauto).
    assert (Kp : pres m k) by (apply (r_pres _ _ HR); eapply keys_in; eauto).
    unfold value_at. rewrite En. cbn [snd]. destruct (r_cont _ _ HR _ _ Hin) as (C1 & C2 & C3).
    destruct (simplify_spec cf cur Hcf C1) as (s & Es & S1 & S2).
    exists (Simple s). split.
    + destruct cur; [cbn in Es; congruence|now rewrite Es].
    + split; [|tauto]. intros _. exists s. split; auto. split; auto. intros y. now rewrite S2, C3.
  - exists d. split; auto. rewrite (r_pres _ _ HR). split; [tauto|auto].
Qed.
Lemma get_entry k cur d : In (k, cur) (kvs sm) -> vp k -> slotmap_get cf sm k d =
  match cur with Pre _ => do s <- simplify cf cur; Some (Simple s) | Simple _ => Some cur end.
Proof.
  intros Hin Hk. pose proof (so_R _ _ H) as HR. unfold slotmap_get.
  destruct (keyvals_get_spec k (kvs sm) (R_vp _ _ HR) Hk) as [(i & c & -> & En)|(-> & Hn)].
  - unfold value_at. rewrite En. cbn [snd].
    rewrite (nodup_fun _ k c cur (r_nodup _ _ HR)); auto. eapply nth_error_In; eauto.
  - exfalso. apply Hn. eapply keys_in; eauto.
Qed.
Lemma get_absent k d : ~ In k (keys_of (kvs sm)) -> vp k -> slotmap_get cf sm k d = Some d.
Proof.
  intros Hn Hk. unfold slotmap_get.
  destruct (keyvals_get_spec k (kvs sm) (R_vp _ _ (so_R _ _ H)) Hk) as [(i & c & -> & En)|(-> & _)]; auto.
  exfalso. apply Hn. eapply keys_in, nth_error_In; eauto.
Qed.

Lemma test_spec k v P : vp k -> vgood v P -> (forall y, P y -> clean y) ->
  exists b, slotmap_test cf sm k v = Some b /\
   (b = true <-> pres m k /\ ((exists y, P y /\ cont m k y) \/ (forall y, ~ P y) /\ (forall y, ~ cont m k y))).
Proof.
  intros Hk V Cl. pose proof (so_R _ _ H) as HR. unfold slotmap_test.
  destruct (keyvals_get_spec k (kvs sm) (R_vp _ _ HR) Hk) as [(i & cur & -> & En)|(-> & Hn)].
  2:{ exists false. split; auto. rewrite (r_pres _ _ HR). split; [discriminate|tauto]. }
  assert (Hin : In (k, cur) (kvs sm)) by (eapply nth_error_In; eauto).
  assert (Kp : pres m k) by (apply (r_pres _ _ HR); eapply keys_in; eauto).
  unfold value_at. rewrite En. cbn [snd]. pose proof (r_cont _ _ HR _ _ Hin) as C.
  destruct (test_values_spec cf v P cur (cont m k) Hcf V Cl C) as (b & E & B). exists b. split; auto. tauto.
Qed.

(** ** Listings *)
Lemma keys_spec : exists s, slotmap_keys cf sm = Some (Simple s) /\ represents s (pres m).
Proof.
  pose proof (so_R _ _ H) as HR. unfold slotmap_keys.
  assert (Fe : Forall elt_ok (keys_of (kvs sm))) by (eapply Forall_impl; [|apply (r_keys _ _ HR)]; now intros k []).
  assert (Ep : forall k, In k (keys_of (kvs sm)) <-> pres m k) by (intros; now rewrite (r_pres _ _ HR)).
  destruct (keys_of (kvs sm)) as [|k [|k2 ks]] eqn:Ek.
  - exists (SVal KEMPTY). split; auto. split; [now left|]. intros x. rewrite <- Ep. simpl. tauto.
  - exists (SVal k). split; auto. inversion Fe; subst. split; [now right|]. intros x. rewrite selts_elt by auto. apply Ep.
  - set (l := k :: k2 :: ks) in *.
    assert (Ev : existsb voidp l = false).
    { apply Bool.not_true_is_false. intros E. apply existsb_exists in E as (x & Hx & Hv).
      rewrite elt_nonvoid in Hv; [discriminate|]. apply (Forall_in _ _ _ Fe Hx). }
    rewrite Ev.
    destruct (init_choice_spec cf l {| f_sort := true; f_compress := false; f_realloc := true;
                                       f_atomic := forallb atomicp l; f_conses := negb (forallb atomicp l) |}) as (s & -> & [S1 S2] & _); auto.
    + apply Forall_forall. intros x Hx E. cbn [f_atomic] in E. rewrite forallb_forall in E. auto.
    + exists s. split; auto. split; auto. intros x. rewrite S2. apply Ep.
Qed.
Lemma pre_init n : 0 < n -> pre_ok (init_prechoice n).
Proof. intros Hn. constructor; cbn; auto; try lia; try constructor; try discriminate. Qed.
Lemma add_all_spec l : Forall lv_ok l -> forall p, pre_ok p ->
  exists p', add_all cf p l = Some p' /\ pre_ok p' /\
    (forall x, In x (pelts p') <-> In x (pelts p) \/ exists v, In v l /\ In x (lelts v)).
Proof.
  induction 1 as [|v l Hv Hl IH]; intros p Hp; cbn [add_all].
  - exists p. split; auto. split; auto. intros x. split; [auto|intros [|(v & [] & _)]; auto].
  - destruct (prechoice_add_spec cf p v Hcf Hp Hv) as (p1 & -> & H1 & E1).
    destruct (IH p1 H1) as (p2 & -> & H2 & E2). exists p2. split; auto. split; auto.
    intros x. rewrite E2, E1. split.
    + intros [[|]|(w & ? & ?)]; eauto. * right. exists v. simpl. auto. * right. exists w. simpl. auto.
    + intros [|(w & [<-|] & ?)]; eauto.
Qed.
Lemma values_spec : exists v, slotmap_values cf sm = Some v /\ vgood v (fun y => exists k, cont m k y) /\
  (length (kvs sm) <> 1 -> exists s, v = Simple s).
Proof.
  pose proof (so_R _ _ H) as HR. unfold slotmap_values.
  assert (Good : forall v, In v (map snd (kvs sm)) -> exists k, In (k, v) (kvs sm)).
  { intros v Hv. apply in_map_iff in Hv as ([k w] & <- & Hv). eauto. }
  assert (All : forall y, (exists k, cont m k y) <-> exists v, In v (map snd (kvs sm)) /\ In y (lelts v)).
  { intros y. split.
    - intros (k & Hy). destruct (r_sub _ _ HR _ _ Hy) as [Hp _]. apply (r_pres _ _ HR) in Hp.
      apply in_keys in Hp as [v Hin]. exists v. split; [now apply (in_map snd) in Hin|].
      now apply (r_cont _ _ HR _ _ Hin).
    - intros (v & Hv & Hy). apply Good in Hv as [k Hv]. exists k. now apply (r_cont _ _ HR _ _ Hv). }
  assert (Ok : Forall lv_ok (map snd (kvs sm))).
  { apply Forall_forall. intros v Hv. apply Good in Hv as [k Hv]. now apply (r_cont _ _ HR _ _ Hv). }
  assert (Len : length (map snd (kvs sm)) = length (kvs sm)) by apply map_length.
  destruct (map snd (kvs sm)) as [|v [|v2 vs]] eqn:Ev.
  - exists EMPTYV. split; auto. split; [|eexists; reflexivity]. destruct emptyv_good as (A & B & C). split; auto. split; auto.
    intros y. rewrite C, All. split; [tauto|intros (v & [] & _)].
  - exists v. split; auto. split; [|simpl in Len; congruence].
    destruct (Good v (or_introl eq_refl)) as [k Hk]. destruct (r_cont _ _ HR _ _ Hk) as (A & B & C). split; auto. split; auto.
    intros y. rewrite All. split; [intros Hy; exists v; simpl; auto|intros (w & [<-|[]] & Hy); auto].
  - set (l := v :: v2 :: vs) in *.
    destruct (add_all_spec l Ok (init_prechoice (7 * length l))) as (p & -> & Hp & Ep).
    { apply pre_init. unfold l. simpl. lia. }
    destruct (simplify_spec cf (Pre p) Hcf Hp) as (s & -> & S1 & S2). exists (Simple s). split; auto.
    split; [|eauto]. split; auto. split; [exact I|]. intros y. cbn [lelts]. rewrite S2. cbn [lelts]. rewrite Ep, All.
    simpl pelts. split; [intros [[]|]; auto|auto].
Qed.
End Ops.

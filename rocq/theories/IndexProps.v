(** Properties of indexes: C34. *)

From Coq Require Import List Bool NArith Lia.
From Verif Require Import IndexModel IndexProofs IndexProofs2.
Import ListNotations.

(** ** What a log file says

    An entry of the file is an operation on the map. *)
Definition entry_op {K V} (e : entry K V) : op K V :=
  match e with
  | LAdd _ _ k v => Add K V [k] v
  | LDrop _ _ k v => Drop K V [k] v
  | LStore _ _ k v => Store K V [k] v
  end.

Definition nothing {K V} : amap K V := fun _ _ => False.

(** What a file holds, by its entries in order. *)
Definition file_map {K V} (l : list (entry K V)) : amap K V :=
  spec_run K V nothing (map entry_op l).

Section S.
Variable K V : Type.
Variable keq : K -> K -> bool.
Variable veq : V -> V -> bool.
Hypothesis keq_spec : forall a b, keq a b = true <-> a = b.
Hypothesis veq_spec : forall a b, veq a b = true <-> a = b.

Lemma replay_map l : forall t (m : amap K V),
  (forall k x, In x (velts V (t_find K V keq k t)) <-> m k x) -> forall k x,
  In x (velts V (t_find K V keq k (fold_left (replay1 K V keq veq) l t))) <->
  spec_run K V m (map entry_op l) k x.
Proof using keq_spec veq_spec.
  induction l as [|e r IH]; intros t m H; [exact H|].
  cbn [fold_left map].
  change (spec_run K V m (entry_op e :: map entry_op r))
    with (spec_run K V (spec_step K V m (entry_op e)) (map entry_op r)).
  apply IH. intros k x. destruct e as [k1 v|k1 v|k1 v]; cbn [replay1 entry_op spec_step].
  - rewrite (local_add K V keq veq keq_spec v t k1 k).
    destruct (keq_cases K keq keq_spec k k1) as [[E E']|[E E']]; rewrite E.
    + subst. rewrite (velts_add V veq veq_spec), H. cbn [In]. tauto.
    + rewrite H. cbn [In]. intuition congruence.
  - rewrite (local_drop K V keq veq keq_spec v t k1 k).
    destruct (keq_cases K keq keq_spec k k1) as [[E E']|[E E']]; rewrite E.
    + subst. rewrite (velts_drop V veq veq_spec), H. cbn [In]. tauto.
    + rewrite H. cbn [In]. intuition congruence.
  - rewrite (local_store K V keq keq_spec (Val V v) t k1 k).
    destruct (keq_cases K keq keq_spec k k1) as [[E E']|[E E']]; rewrite E.
    + subst. cbn [f_store velts In]. tauto.
    + rewrite H. cbn [In]. intuition congruence.
Qed.

Lemma file_fetch l k x : In x (log_fetch K V keq veq l k) <-> file_map l k x.
Proof using keq_spec veq_spec.
  unfold log_fetch. rewrite htget_velts. apply replay_map.
  intros k0 x0. cbn. unfold nothing. tauto.
Qed.

(** Maps with the same elements stay so. *)
Lemma spec_run_ext l : forall (m m' : amap K V),
  (forall k x, m k x <-> m' k x) -> forall k x, spec_run K V m l k x <-> spec_run K V m' l k x.
Proof using.
  induction l as [|o r IH]; intros m m' H; [exact H|].
  apply IH. intros k x. destruct o; cbn [spec_step]; rewrite ?H; try reflexivity.
Qed.

Lemma history l lv ns ops k x : all_allowed K V (ghost0 K lv) ops ->
  In x (fst (index_get K V keq veq (run K V keq veq (open_index K V lv ns l) ops) k)) <->
  spec_run K V (file_map l) ops k x.
Proof using keq_spec veq_spec.
  intros A.
  pose proof (inv_run K V keq veq keq_spec veq_spec ops _ _ _ (inv_open K V keq veq lv ns l) A) as H.
  rewrite (get_val K V keq veq veq_spec _ k x _ _ H).
  apply spec_run_ext. intros k0 x0. apply file_fetch.
Qed.

Lemma durable l lv ns ops k x : all_allowed K V (ghost0 K lv) ops ->
  file_map (disk K V (run K V keq veq (open_index K V lv ns l) (ops ++ [Commit K V true]))) k x <->
  spec_run K V (file_map l) ops k x.
Proof using keq_spec veq_spec.
  intros A.
  pose proof (inv_run K V keq veq keq_spec veq_spec ops _ _ _ (inv_open K V keq veq lv ns l) A) as H.
  rewrite <- file_fetch. unfold run. rewrite fold_left_app. cbn [fold_left step].
  rewrite (disk_commit K V keq veq keq_spec veq_spec _ _ _ k x H).
  apply spec_run_ext. intros k0 x0. apply file_fetch.
Qed.

Lemma find_some_in k t v : t_find K V keq k t = Some v -> In k (map fst t).
Proof using keq_spec.
  intros E. destruct (in_dec_k K keq keq_spec k (map fst t)) as [H|H]; [exact H|].
  apply (find_none K V keq keq_spec) in H. congruence.
Qed.

Lemma keys_complete set_key l lv ns ops k x : all_allowed K V (ghost0 K lv) ops ->
  ~ pend K (ghost_run K V (ghost0 K lv) ops) k ->
  In x (fst (index_get K V keq veq (run K V keq veq (open_index K V lv ns l) ops) k)) ->
  In (Some k) (index_keys K V keq veq set_key (run K V keq veq (open_index K V lv ns l) ops)).
Proof using keq_spec veq_spec.
  intros A P.
  pose proof (inv_run K V keq veq keq_spec veq_spec ops _ _ _ (inv_open K V keq veq lv ns l) A) as H.
  rewrite (get_val K V keq veq veq_spec _ k x _ _ H).
  rewrite <- (i_map K V keq veq _ _ _ H k x).
  set (ix := run K V keq veq (open_index K V lv ns l) ops) in *.
  intros [Hx _]. unfold index_keys. rewrite !in_app_iff.
  assert (F : forall t, In x (htget K V keq t k) -> In (Some k) (map (fun p => Some (fst p)) t)).
  { intros t Ht. rewrite htget_velts in Ht.
    destruct (t_find K V keq k t) as [v|] eqn:E; [|destruct Ht].
    apply find_some_in in E. rewrite <- (map_map fst Some). apply in_map. exact E. }
  destruct Hx as [Hx|Hx]; [left | right; left; apply F; exact Hx].
  assert (Hd : In x (log_fetch K V keq veq (disk K V ix) k)).
  { unfold based in Hx. destruct (i_free K V keq veq _ _ _ H k P) as [E|[E _]]; rewrite E in Hx; [exact Hx|destruct Hx]. }
  unfold log_fetch in Hd. apply F in Hd. unfold log_keys.
  destruct (replay K V keq veq (disk K V ix)); [destruct Hd|exact Hd].
Qed.

(** A class of histories in which everything is allowed. *)
Lemma all_allowed_class (P : op K V -> Prop) (Q : ghost K -> Prop) :
  (forall g o, Q g -> P o -> allowed K V g o) ->
  (forall g o, Q g -> P o -> Q (ghost_step K V g o)) ->
  forall l g, Q g -> Forall P l -> all_allowed K V g l.
Proof using.
  intros A B. induction l as [|o r IH]; intros g Hq Hf; [exact I|].
  inversion Hf; subst. split; [apply A; assumption|]. apply IH; [|assumption]. apply B; assumption.
Qed.

End S.

(** ** C34: get after a history

    Whatever is on file when a log index is opened, after any history of adds,
    drops, stores, reads, prefetches, swap-outs, changes of cache level and
    commits (successful or failed), what an index gives for a key is what the
    history does to a map from keys to sets, provided that
    - nothing is dropped from a key which has been stored to since the last
      successful commit, and no such key is prefetched;
    - [add!] (the inline add) is not used on a key from which something has
      been dropped since it was last stored to -- or, unless the last store to
      the key was of no values, since the last successful commit;
    - [add!] is not used while the cache is switched off after having been on.
    The refutations below show that each of these is needed. *)
Theorem C34_history_partial :
  forall K V keq veq,
  (forall a b : K, keq a b = true <-> a = b) ->
  (forall a b : V, veq a b = true <-> a = b) ->
  forall lv ns l ops, all_allowed K V (ghost0 K lv) ops ->
  forall k x,
  In x (fst (index_get K V keq veq (run K V keq veq (open_index K V lv ns l) ops) k)) <->
  spec_run K V (file_map l) ops k x.
Proof. intros. apply history; assumption. Qed.

Local Open Scope N_scope.

Notation ix0 := (open_index N N true false).
Notation runN := (run N N N.eqb N.eqb).
Notation getN := (index_get N N N.eqb N.eqb).
Notation specN := (spec_run N N).
Notation AddN := (Add N N).
Notation AddInlineN := (AddInline N N).
Notation DropN := (Drop N N).
Notation StoreN := (Store N N).
Notation GetN := (Get N N).
Notation PrefetchN := (Prefetch N N).
Notation SwapoutN := (Swapout N N).
Notation SwapoutAllN := (SwapoutAll N N).
Notation SetCacheN := (SetCache N N).
Notation CommitN := (Commit N N).

Definition some_ops : list (op N N) :=
  [AddInlineN [1; 2] [10; 11]; GetN 1; CommitN true; DropN [1] [10; 5]; PrefetchN [1; 3];
   StoreN [2] []; AddN [1] [10]; CommitN false; SwapoutN [1]; CommitN true;
   DropN [2] [11]; AddN [2] [11]; SetCacheN false; GetN 2; SetCacheN true; CommitN true].

Example C34_history_case :
  all_allowed N N (ghost0 N true) some_ops /\
  fst (getN (runN (ix0 [LAdd N N 1 [5; 6]]) some_ops) 1) = [6; 10; 11] /\
  fst (getN (runN (ix0 [LAdd N N 1 [5; 6]]) some_ops) 2) = [11].
Proof.
  split; [|split; vm_compute; reflexivity].
  cbn. repeat split; auto; try (intros k [H|H]; tauto); try (right; intros k [<-|[]]; tauto).
Qed.
Print Assumptions C34_history_partial.

(** After a successful commit a new index on the file gives what the history
    does to the map: nothing depends on what was in memory. *)
Theorem C34_durable_partial :
  forall K V keq veq,
  (forall a b : K, keq a b = true <-> a = b) ->
  (forall a b : V, veq a b = true <-> a = b) ->
  forall lv ns l ops, all_allowed K V (ghost0 K lv) ops ->
  forall lv' ns' k x,
  In x (fst (index_get K V keq veq
          (open_index K V lv' ns'
             (disk K V (run K V keq veq (open_index K V lv ns l) (ops ++ [Commit K V true])))) k)) <->
  spec_run K V (file_map l) ops k x.
Proof.
  intros K V keq veq HK HV lv ns l ops A lv' ns' k x.
  rewrite <- (durable K V keq veq HK HV l lv ns ops k x A).
  apply (history K V keq veq HK HV _ lv' ns' [] k x). exact I.
Qed.

Example C34_durable_case :
  all_allowed N N (ghost0 N true) some_ops /\
  fst (getN (ix0 (disk N N (runN (ix0 [LAdd N N 1 [5; 6]]) (some_ops ++ [CommitN true])))) 1) = [6; 10; 11].
Proof.
  split; [|vm_compute; reflexivity].
  apply C34_history_case.
Qed.
Print Assumptions C34_durable_partial.

(** The file itself: what is read from a log file is what its entries, one
    after the other, do to a map which is empty to start with.  (Full.) *)
Theorem C34_log_file :
  forall K V keq veq,
  (forall a b : K, keq a b = true <-> a = b) ->
  (forall a b : V, veq a b = true <-> a = b) ->
  forall l k x, In x (log_fetch K V keq veq l k) <-> file_map l k x.
Proof. intros. apply file_fetch; assumption. Qed.

Example C34_log_file_case :
  log_fetch N N N.eqb N.eqb
    [LAdd N N 1 [5; 6]; LStore N N 2 []; LDrop N N 1 [5]; LAdd N N 2 [7]; LAdd N N 1 [8]; LDrop N N 3 [1]] 1
  = [6; 8].
Proof. vm_compute. reflexivity. Qed.
Print Assumptions C34_log_file.

(** Histories without stores, in which values are added by [_kno_index_add]
    (as [index-add!] in dbprims.c does): no condition. *)
Definition no_stores {K V} (o : op K V) : Prop :=
  match o with
  | AddInline _ _ _ _ | Store _ _ _ _ => False
  | _ => True
  end.

Theorem C34_add_drop_partial :
  forall K V keq veq,
  (forall a b : K, keq a b = true <-> a = b) ->
  (forall a b : V, veq a b = true <-> a = b) ->
  forall lv ns l ops, Forall no_stores ops ->
  forall k x,
  In x (fst (index_get K V keq veq (run K V keq veq (open_index K V lv ns l) ops) k)) <->
  spec_run K V (file_map l) ops k x.
Proof.
  intros K V keq veq HK HV lv ns l ops F k x. apply history; try assumption.
  apply (all_allowed_class K V no_stores (fun g => forall k, ~ pend K g k)); [| | |exact F].
  - intros g o Q P. destruct o; cbn in *; try exact I; try contradiction; auto.
  - intros g o Q P. destruct o as [| | | | | | | | |[|]]; cbn in *; try contradiction; auto.
  - cbn. auto.
Qed.

Example C34_add_drop_case :
  let ops := [AddN [1; 2] [10; 11]; DropN [1] [10]; GetN 1; CommitN true; AddN [1] [10]; DropN [2] [11]; CommitN true] in
  Forall no_stores ops /\ fst (getN (runN (ix0 []) ops) 1) = [11; 10].
Proof. split; [repeat constructor | vm_compute; reflexivity]. Qed.
Print Assumptions C34_add_drop_partial.

(** Histories without drops and prefetches, with either kind of add, in which
    the cache level stays as it is: no condition. *)
Definition no_drops {K V} (o : op K V) : Prop :=
  match o with
  | Drop _ _ _ _ | Prefetch _ _ _ | SetCache _ _ _ => False
  | _ => True
  end.

Theorem C34_add_store_partial :
  forall K V keq veq,
  (forall a b : K, keq a b = true <-> a = b) ->
  (forall a b : V, veq a b = true <-> a = b) ->
  forall lv ns l ops, Forall no_drops ops ->
  forall k x,
  In x (fst (index_get K V keq veq (run K V keq veq (open_index K V lv ns l) ops) k)) <->
  spec_run K V (file_map l) ops k x.
Proof.
  intros K V keq veq HK HV lv ns l ops F k x. apply history; try assumption.
  apply (all_allowed_class K V no_drops
           (fun g => (lvl K g = true \/ ever K g = false) /\ forall k, ~ dropd K g k)); [| | |exact F].
  - intros g o [Q1 Q2] P. destruct o; cbn in *; try exact I; try contradiction. split; auto.
  - intros g o [Q1 Q2] P. destruct o as [| | | | | | | | |[|]]; cbn in *; try contradiction; auto.
    + split; [exact Q1|]. intros k0 [H _]. apply (Q2 k0 H).
    + split; [exact Q1|]. intros k0 [H _]. apply (Q2 k0 H).
  - cbn. destruct lv; auto.
Qed.

Example C34_add_store_case :
  let ops := [AddInlineN [1; 2] [10; 11]; StoreN [1] []; GetN 1; CommitN true; AddInlineN [1] [10]; StoreN [2] [3]; CommitN true] in
  Forall no_drops ops /\ fst (getN (runN (ix0 []) ops) 1) = [10].
Proof. split; [repeat constructor | vm_compute; reflexivity]. Qed.
Print Assumptions C34_add_store_partial.

(** Every key which has a value is listed by [kno_index_keys], after the
    histories of [C34_history_partial], unless it has been stored to since the
    last successful commit. *)
Theorem C34_keys_partial :
  forall K V keq veq,
  (forall a b : K, keq a b = true <-> a = b) ->
  (forall a b : V, veq a b = true <-> a = b) ->
  forall set_key lv ns l ops, all_allowed K V (ghost0 K lv) ops ->
  forall k x,
  ~ pend K (ghost_run K V (ghost0 K lv) ops) k ->
  spec_run K V (file_map l) ops k x ->
  In (Some k) (index_keys K V keq veq set_key (run K V keq veq (open_index K V lv ns l) ops)).
Proof.
  intros K V keq veq HK HV sk lv ns l ops A k x P H.
  apply (keys_complete K V keq veq HK HV sk l lv ns ops k x A P).
  apply (history K V keq veq HK HV l lv ns ops k x A). exact H.
Qed.

Example C34_keys_case :
  let ops := [AddInlineN [1] [7]; StoreN [2] [8]; CommitN true; AddN [3] [9]] in
  all_allowed N N (ghost0 N true) ops /\
  index_keys N N N.eqb N.eqb (fun _ => None) (runN (ix0 []) ops) = [Some 1; Some 2; Some 3].
Proof. split; [cbn; repeat split; auto | vm_compute; reflexivity]. Qed.
Print Assumptions C34_keys_partial.

(** ** What goes wrong *)

Definition has (ix : index N N) (k x : N) : Prop := In x (fst (getN ix k)).

(** Dropping a value from a key and adding it again with [add!] leaves the key
    without it, before and after a commit. *)
Theorem C34_drop_then_add_refuted :
  exists ops k x, specN (file_map []) ops k x /\
  ~ has (runN (ix0 []) ops) k x /\
  ~ has (runN (ix0 []) (ops ++ [CommitN true])) k x.
Proof.
  exists [DropN [1] [7]; AddInlineN [1] [7]], 1, 7.
  split; [vm_compute; intuition discriminate|]. split; vm_compute; intuition discriminate.
Qed.
Print Assumptions C34_drop_then_add_refuted.

(** Storing two values, dropping one of them and committing: the other is no
    longer given, although it is on file; the next commit removes it from the
    file as well. *)
Theorem C34_store_drop_commit_refuted :
  exists ops k x, specN (file_map []) ops k x /\
  file_map (disk N N (runN (ix0 []) ops)) k x /\
  ~ has (runN (ix0 []) ops) k x /\
  ~ file_map (disk N N (runN (ix0 []) (ops ++ [CommitN true]))) k x.
Proof.
  exists [StoreN [1] [7; 8]; DropN [1] [8]; CommitN true], 1, 7.
  split; [vm_compute; intuition discriminate|]. split; [|split].
  - rewrite <- (file_fetch N N N.eqb N.eqb N.eqb_eq N.eqb_eq). vm_compute. intuition discriminate.
  - vm_compute. intuition discriminate.
  - rewrite <- (file_fetch N N N.eqb N.eqb N.eqb_eq N.eqb_eq). vm_compute. intuition discriminate.
Qed.
Print Assumptions C34_store_drop_commit_refuted.

(** The same with two keys: after the commit the dropped value is back. *)
Theorem C34_dropped_value_back_refuted :
  exists ops k x, ~ specN (file_map []) ops k x /\ has (runN (ix0 []) ops) k x.
Proof.
  exists [StoreN [1; 2] [7; 8]; DropN [1; 2] [8]; CommitN true], 1, 8.
  split; vm_compute; intuition discriminate.
Qed.
Print Assumptions C34_dropped_value_back_refuted.

(** A key stored to and then prefetched gives what is on file, not what was
    stored. *)
Theorem C34_prefetch_refuted :
  exists ops k x, specN (file_map []) ops k x /\ ~ has (runN (ix0 []) ops) k x.
Proof.
  exists [StoreN [1] [7]; PrefetchN [1]], 1, 7. split; vm_compute; intuition discriminate.
Qed.
Print Assumptions C34_prefetch_refuted.

(** [add!] while the cache is off leaves the cached value as it was, and this is
    what is given when the cache is on again. *)
Theorem C34_cache_off_refuted :
  exists ops k x, specN (file_map []) ops k x /\ ~ has (runN (ix0 []) ops) k x.
Proof.
  exists [GetN 1; SetCacheN false; AddInlineN [1] [7]; SetCacheN true], 1, 7. split; vm_compute; intuition discriminate.
Qed.
Print Assumptions C34_cache_off_refuted.

(** [kno_batch_add] and [kno_index_merge]: a value added in this way is not given
    for a key which is in the cache, nor for a key from which it was dropped. *)
Theorem C34_batch_add_refuted :
  exists k x,
  ~ has (index_merge N N N.eqb N.eqb (runN (ix0 []) [GetN k]) [(k, [x])]) k x /\
  ~ has (index_merge N N N.eqb N.eqb (runN (ix0 []) [DropN [k] [x]]) [(k, [x])]) k x.
Proof. exists 1, 7. split; vm_compute; intuition discriminate. Qed.
Print Assumptions C34_batch_add_refuted.

(** [kno_index_fetchn] with several keys leaves out the pending changes, with
    one key it does not. *)
Theorem C34_fetchn_refuted :
  exists ops k k' x,
  has (runN (ix0 []) ops) k x /\
  index_fetchn N N N.eqb N.eqb (runN (ix0 []) ops) [k] = [(k, [x])] /\
  In (k, []) (index_fetchn N N N.eqb N.eqb (runN (ix0 []) ops) [k; k']).
Proof.
  exists [AddInlineN [1] [7]], 1, 2, 7. split; [vm_compute; intuition discriminate|]. split; vm_compute; intuition discriminate.
Qed.
Print Assumptions C34_fetchn_refuted.

(** [kno_index_keys] leaves out a key which has been stored to and not yet
    committed (unless it is a pair [(set . x)]), and an empty log index lists
    the empty choice as a key. *)
Theorem C34_keys_refuted :
  exists ops k x,
  has (runN (ix0 []) ops) k x /\
  ~ In (Some k) (index_keys N N N.eqb N.eqb (fun _ => None) (runN (ix0 []) ops)) /\
  index_keys N N N.eqb N.eqb (fun _ => None) (ix0 []) = [None].
Proof.
  exists [StoreN [1] [7]], 1, 7. split; [vm_compute; intuition discriminate|].
  split; [|reflexivity]. vm_compute. intros [H|[]]. discriminate.
Qed.
Print Assumptions C34_keys_refuted.

(** [kno_index_keysizes] on a log index: a key with one value on file has size 6
    (the tagged word of 1), and adding the value again makes it 7. *)
Theorem C34_keysizes_refuted :
  exists l k x,
  fst (getN (ix0 l) k) = [x] /\
  s_find N N.eqb k (index_keysizes N N N.eqb N.eqb (ix0 l)) = Some 6 /\
  fst (getN (runN (ix0 l) [AddInlineN [k] [x]]) k) = [x] /\
  s_find N N.eqb k (index_keysizes N N N.eqb N.eqb (runN (ix0 l) [AddInlineN [k] [x]])) = Some 7.
Proof.
  exists [LAdd N N 1 [7]], 1, 7. repeat split; vm_compute; reflexivity.
Qed.
Print Assumptions C34_keysizes_refuted.

(** Indexes kept in memory and written to a log, opened with any contents: after any history of
    additions, drops, fetches and commits without stores, or of additions, stores, fetches
    and commits without drops, every key has exactly the values the history gives it. *)
Theorem C91_indexes : forall K V keq veq,
  (forall a b : K, keq a b = true <-> a = b) -> (forall a b : V, veq a b = true <-> a = b) ->
  forall lv ns l ops, Forall no_stores ops \/ Forall no_drops ops -> forall k x,
  In x (fst (index_get K V keq veq (run K V keq veq (open_index K V lv ns l) ops) k)) <->
  spec_run K V (file_map l) ops k x.
Proof.
  intros K V keq veq HK HV lv ns l ops [H|H] k x.
  - apply C34_add_drop_partial; assumption.
  - apply C34_add_store_partial; assumption.
Qed.
Example C91_indexes_case :
  let ops := [AddN [1; 2] [10; 11]; DropN [1] [10]; GetN 1; CommitN true; AddN [1] [10]; DropN [2] [11]; CommitN true] in
  (Forall no_stores ops \/ Forall no_drops ops) /\ fst (getN (runN (ix0 []) ops) 1) = [11; 10].
Proof. split; [left; apply C34_add_drop_case | vm_compute; reflexivity]. Qed.
Print Assumptions C91_indexes.

(** Histories of an index: the invariant kept by the allowed operations. *)

From Coq Require Import List Bool NArith Lia.
From Verif Require Import IndexModel IndexProofs.
Import ListNotations.

(** ** What a history should mean

    The abstract map: which elements a key has. *)

Section Spec.

Variable K V : Type.

Definition amap := K -> V -> Prop.

(** Add, drop and store change the map; nothing else does. *)
Definition spec_step (m : amap) (o : op K V) : amap :=
  match o with
  | Add _ _ ks v | AddInline _ _ ks v => fun k x => m k x \/ (In k ks /\ In x v)
  | Drop _ _ ks v => fun k x => m k x /\ ~ (In k ks /\ In x v)
  | Store _ _ ks v => fun k x => (In k ks /\ In x v) \/ (~ In k ks /\ m k x)
  | _ => m
  end.

Definition spec_run (m : amap) (l : list (op K V)) : amap := fold_left spec_step l m.

(** What the history so far says about each key:
    - [pend]: stored to since the last successful commit;
    - [dropd]: values dropped from it since it was last stored to (a
      successful commit clears this, except for keys in [emptied]);
    - [emptied]: the last store to it gave it the empty value;
    and whether the cache is on and has ever been on. *)
Record ghost := Gh {
  pend : K -> Prop;
  dropd : K -> Prop;
  emptied : K -> Prop;
  lvl : bool;
  ever : bool }.

Definition ghost0 (lv : bool) : ghost :=
  Gh (fun _ => False) (fun _ => False) (fun _ => False) lv lv.

Definition ghost_step (g : ghost) (o : op K V) : ghost :=
  match o with
  | Drop _ _ ks v =>
    Gh (pend g) (fun k => dropd g k \/ (In k ks /\ v <> [])) (emptied g) (lvl g) (ever g)
  | Store _ _ ks v =>
    Gh (fun k => In k ks \/ pend g k)
       (fun k => dropd g k /\ ~ In k ks)
       (fun k => (In k ks /\ v = []) \/ (~ In k ks /\ emptied g k))
       (lvl g) (ever g)
  | SetCache _ _ lv => Gh (pend g) (dropd g) (emptied g) lv (lv || ever g)
  | Commit _ _ true =>
    Gh (fun _ => False) (fun k => dropd g k /\ emptied g k) (emptied g) (lvl g) (ever g)
  | _ => g
  end.

Definition ghost_run (g : ghost) (l : list (op K V)) : ghost := fold_left ghost_step l g.

(** The operations allowed. *)
Definition allowed (g : ghost) (o : op K V) : Prop :=
  match o with
  | AddInline _ _ ks v =>
    (lvl g = true \/ ever g = false) /\ (forall k, In k ks -> ~ dropd g k)
  | Drop _ _ ks v => v = [] \/ forall k, In k ks -> ~ pend g k
  | Prefetch _ _ ks => forall k, In k ks -> ~ pend g k
  | _ => True
  end.

Fixpoint all_allowed (g : ghost) (l : list (op K V)) : Prop :=
  match l with
  | [] => True
  | o :: r => allowed g o /\ all_allowed (ghost_step g o) r
  end.

End Spec.

Section P.

Variable K V : Type.
Variable keq : K -> K -> bool.
Variable veq : V -> V -> bool.
Hypothesis keq_spec : forall a b, keq a b = true <-> a = b.
Hypothesis veq_spec : forall a b, veq a b = true <-> a = b.

Notation table := (table K V).
Notation tval := (tval V).
Notation t_find := (t_find K V keq).
Notation t_get := (t_get K V keq).
Notation htget := (htget K V keq).
Notation index := (index K V).
Notation drops := (drops K V).
Notation adds := (adds K V).
Notation stores := (stores K V).
Notation cache := (cache K V).
Notation level := (level K V).
Notation noswap := (noswap K V).
Notation disk := (disk K V).
Notation log_fetch := (log_fetch K V keq veq).
Notation based := (based K V keq veq).
Notation seen := (seen K V keq veq).
Notation keys := (keys K V).
Notation velts := (velts V).
Notation step := (step K V keq veq).
Notation run := (run K V keq veq).

Record inv (g : ghost K) (m : amap K V) (ix : index) : Prop := {
  i_lvl : level ix = lvl K g;
  i_nc : NoDup (keys (cache ix));
  i_na : NoDup (keys (adds ix));
  i_nd : NoDup (keys (drops ix));
  i_ns : NoDup (keys (stores ix));
  i_map : forall k x, seen ix k x <-> m k x;
  i_cache : forall k s, t_get k (cache ix) = Some s -> forall x, In x s <-> m k x;
  i_pend : forall k, pend K g k -> htget (drops ix) k = [];
  i_free : forall k, ~ pend K g k ->
    t_get k (stores ix) = None \/
    (t_get k (stores ix) = Some [] /\ log_fetch (disk ix) k = []);
  i_empty : forall k, t_get k (stores ix) = Some [] -> emptied K g k;
  i_drop : forall k, htget (drops ix) k <> [] -> dropd K g k;
  i_ever : ever K g = false -> cache ix = [];
  i_ever2 : ever K g = false -> lvl K g = false }.

Lemma inv_open lv ns l :
  inv (ghost0 K lv) (fun k x => In x (log_fetch l k)) (open_index K V lv ns l).
Proof using.
  constructor; cbn; try reflexivity; try discriminate; try (constructor; fail); try tauto.
  - unfold IndexProofs.seen, IndexProofs.based. cbn. tauto.
Qed.

Lemma fetch_val ix k x : forall m g, inv g m ix ->
  In x (fst (index_fetch K V keq veq ix k)) <-> m k x.
Proof using veq_spec.
  intros m g H. rewrite (fetch_seen K V keq veq veq_spec). apply (i_map _ _ _ H).
Qed.

Lemma get_val ix k x : forall m g, inv g m ix ->
  In x (fst (index_get K V keq veq ix k)) <-> m k x.
Proof using veq_spec.
  intros m g H. unfold index_get.
  destruct (if level ix then t_get k (cache ix) else None) as [s|] eqn:E.
  - cbn [fst]. apply (i_cache _ _ _ H k). destruct (level ix); [exact E|discriminate].
  - apply (fetch_val ix k x m g H).
Qed.

(** Only the cache changes, and stays right. *)
Lemma inv_cache g m ix c : inv g m ix -> NoDup (keys c) ->
  (forall k s, t_get k c = Some s -> forall x, In x s <-> m k x) ->
  (ever K g = false -> c = []) ->
  inv g m (with_cache K V ix c).
Proof using.
  intros H Hn Hc He. destruct H. constructor; cbn; auto.
Qed.

Lemma tget_store v k t k' :
  t_get k' (t_store K V keq v t k) =
  if keq k' k then match v with Val _ s => Some s | Void _ => None end else t_get k' t.
Proof using keq_spec.
  unfold IndexModel.t_get, t_store. rewrite (find_put K V keq keq_spec).
  destruct (keq k' k); [destruct v|]; reflexivity.
Qed.

Lemma inv_get g m ix k : inv g m ix -> inv g m (snd (index_get K V keq veq ix k)).
Proof using keq_spec veq_spec.
  intros H. unfold index_get.
  destruct (if level ix then t_get k (cache ix) else None) as [s|] eqn:E; [exact H|].
  unfold index_fetch. cbn [snd].
  destruct (level ix) eqn:L; [|exact H].
  apply inv_cache; [exact H|apply safe_store; [exact keq_spec | apply (i_nc _ _ _ H)] | |].
  - intros k' s. rewrite tget_store.
    destruct (keq_cases K keq keq_spec k' k) as [[E1 E2]|[E1 E2]]; rewrite E1.
    + intros [= <-] x. subst k'. apply (fetch_val ix k x m g H).
    + apply (i_cache _ _ _ H).
  - intros He. apply (i_ever2 _ _ _ H) in He. rewrite <- (i_lvl _ _ _ H), L in He. discriminate.
Qed.

Lemma tget_each op f ks : local K V keq op f -> idem V f -> forall t k,
  (In k ks -> t_get k (each K V op ks t) = match f (t_find k t) with Some (Val _ s) => Some s | _ => None end) /\
  (~ In k ks -> t_get k (each K V op ks t) = t_get k t).
Proof using keq_spec. apply tget_each. exact keq_spec. Qed.

Lemma cache_add g m ix ks v k s :
  inv g m ix ->
  t_get k (each K V (t_add_if_present K V keq veq v) ks (cache ix)) = Some s ->
  forall x, In x s <-> m k x \/ (In k ks /\ In x v).
Proof using keq_spec veq_spec.
  intros H E x.
  destruct (tget_each _ _ ks (local_add_ip K V keq veq keq_spec v) (idem_add_ip V veq veq_spec v) (cache ix) k) as [H1 H2].
  destruct (in_dec_k K keq keq_spec k ks) as [Hk|Hk].
  - rewrite (H1 Hk) in E. unfold f_add_ip in E. destruct v as [|a r].
    + destruct (t_find k (cache ix)) as [[|s0]|] eqn:F; try discriminate.
      injection E as <-. cbn [In].
      rewrite (i_cache _ _ _ H k s0); [tauto|]. unfold IndexModel.t_get. rewrite F. reflexivity.
    + destruct (t_find k (cache ix)) as [[|s0]|] eqn:F; try discriminate.
      injection E as <-. rewrite (in_union V veq veq_spec).
      rewrite (i_cache _ _ _ H k s0); [tauto|]. unfold IndexModel.t_get. rewrite F. reflexivity.
  - rewrite (H2 Hk) in E. rewrite (i_cache _ _ _ H k s E). tauto.
Qed.

Lemma each_nil (op : table -> K -> table) ks :
  (forall k, op [] k = []) -> each K V op ks [] = [].
Proof using.
  intros H. unfold each. induction ks as [|a r IH]; [reflexivity|].
  cbn [fold_left]. rewrite H. exact IH.
Qed.

Lemma add_ip_nil v k : t_add_if_present K V keq veq v [] k = [].
Proof using. destruct v; reflexivity. Qed.

Lemma drop_nil v k : t_drop K V keq veq v [] k = [].
Proof using. destruct v; reflexivity. Qed.

Lemma not_in_nil (s : list V) : (forall x, ~ In x s) -> s = [].
Proof using. apply nil_iff. Qed.

Lemma inv_add g m ix ks v : inv g m ix ->
  inv g (spec_step K V m (Add K V ks v)) (index_add K V keq veq ix ks v).
Proof using keq_spec veq_spec.
  intros H. unfold index_add. destruct v as [|a r].
  { destruct H. constructor; auto.
    - intros k x. rewrite i_map0. cbn. tauto.
    - intros k s E x. rewrite (i_cache0 k s E). cbn. tauto. }
  cbv iota. set (v := a :: r). clearbody v. clear a r.
  constructor; cbn.
  - apply (i_lvl _ _ _ H).
  - apply safe_each; [apply safe_add_ip; exact keq_spec | apply (i_nc _ _ _ H)].
  - apply safe_each; [apply safe_add; exact keq_spec | apply (i_na _ _ _ H)].
  - apply safe_each; [apply safe_drop; exact keq_spec | apply (i_nd _ _ _ H)].
  - apply (i_ns _ _ _ H).
  - intros k x. unfold IndexProofs.seen, IndexProofs.based. cbn.
    rewrite (each_add K V keq veq keq_spec veq_spec), (each_drop K V keq veq keq_spec veq_spec).
    rewrite <- (i_map _ _ _ H k x). unfold IndexProofs.seen, IndexProofs.based.
    destruct (in_dec_v V veq veq_spec x (htget (drops ix) k));
      destruct (in_dec_k K keq keq_spec k ks); destruct (in_dec_v V veq veq_spec x v); tauto.
  - intros k s E x. apply (cache_add g m ix ks v k s H E).
  - intros k P. apply not_in_nil. intros x.
    rewrite (each_drop K V keq veq keq_spec veq_spec), (i_pend _ _ _ H k P). cbn. tauto.
  - apply (i_free _ _ _ H).
  - apply (i_empty _ _ _ H).
  - intros k N. apply (i_drop _ _ _ H). intros E. apply N. apply not_in_nil. intros x.
    rewrite (each_drop K V keq veq keq_spec veq_spec), E. cbn. tauto.
  - intros E. rewrite (i_ever _ _ _ H E). apply each_nil. apply add_ip_nil.
  - apply (i_ever2 _ _ _ H).
Qed.

Lemma inv_add_inline g m ix ks v : inv g m ix -> allowed K V g (AddInline K V ks v) ->
  inv g (spec_step K V m (AddInline K V ks v)) (index_add_inline K V keq veq ix ks v).
Proof using keq_spec veq_spec.
  intros H [AL AD]. unfold index_add_inline.
  constructor; cbn.
  - apply (i_lvl _ _ _ H).
  - destruct (level ix); [|apply (i_nc _ _ _ H)].
    apply safe_each; [apply safe_add_ip; exact keq_spec | apply (i_nc _ _ _ H)].
  - apply safe_each; [apply safe_add; exact keq_spec | apply (i_na _ _ _ H)].
  - apply (i_nd _ _ _ H).
  - apply (i_ns _ _ _ H).
  - intros k x. unfold IndexProofs.seen, IndexProofs.based. cbn.
    rewrite (each_add K V keq veq keq_spec veq_spec).
    rewrite <- (i_map _ _ _ H k x). unfold IndexProofs.seen, IndexProofs.based.
    destruct (in_dec_k K keq keq_spec k ks) as [Hk|Hk]; [|tauto].
    assert (E : htget (drops ix) k = []).
    { destruct (htget (drops ix) k) eqn:F; [reflexivity|]. exfalso.
      apply (AD k Hk). apply (i_drop _ _ _ H). rewrite F. discriminate. }
    rewrite E. cbn [In]. tauto.
  - intros k s E x. destruct (level ix) eqn:L; [apply (cache_add g m ix ks v k s H E)|].
    destruct AL as [AL|AL]; [rewrite <- (i_lvl _ _ _ H), L in AL; discriminate|].
    rewrite (i_ever _ _ _ H AL) in E. discriminate.
  - apply (i_pend _ _ _ H).
  - apply (i_free _ _ _ H).
  - apply (i_empty _ _ _ H).
  - apply (i_drop _ _ _ H).
  - intros E. rewrite (i_ever _ _ _ H E). destruct (level ix); [|reflexivity]. apply each_nil. apply add_ip_nil.
  - apply (i_ever2 _ _ _ H).
Qed.

Lemma inv_drop g m ix ks v : inv g m ix -> allowed K V g (Drop K V ks v) ->
  inv (ghost_step K V g (Drop K V ks v)) (spec_step K V m (Drop K V ks v)) (index_drop K V keq veq ix ks v).
Proof using keq_spec veq_spec.
  intros H A. unfold index_drop. destruct v as [|a r].
  { destruct H. constructor; cbn; auto.
    - intros k x. rewrite i_map0. tauto.
    - intros k s E x. rewrite (i_cache0 k s E). tauto. }
  destruct A as [A|A]; [discriminate|].
  cbv iota. set (v := a :: r) in *. assert (Hv : v <> []) by discriminate. clearbody v. clear a r.
  constructor; cbn.
  - apply (i_lvl _ _ _ H).
  - apply safe_each; [apply safe_drop; exact keq_spec | apply (i_nc _ _ _ H)].
  - apply safe_each; [apply safe_drop; exact keq_spec | apply (i_na _ _ _ H)].
  - apply safe_each; [apply safe_add; exact keq_spec | apply (i_nd _ _ _ H)].
  - apply (i_ns _ _ _ H).
  - intros k x. unfold IndexProofs.seen, IndexProofs.based. cbn.
    rewrite (each_add K V keq veq keq_spec veq_spec), (each_drop K V keq veq keq_spec veq_spec).
    rewrite <- (i_map _ _ _ H k x). unfold IndexProofs.seen, IndexProofs.based. tauto.
  - intros k s E x.
    destruct (tget_each _ _ ks (local_drop K V keq veq keq_spec v) (idem_drop V veq v) (cache ix) k) as [H1 H2].
    destruct (in_dec_k K keq keq_spec k ks) as [Hk|Hk].
    + rewrite (H1 Hk) in E. unfold f_drop in E.
      destruct v as [|a r]; [contradiction|]. set (v := a :: r) in *. clearbody v.
      destruct (t_find k (cache ix)) as [[|s0]|] eqn:F; try discriminate.
      assert (Es : s = minus V veq s0 v).
      { destruct (minus V veq s0 v); [discriminate|]. injection E as <-. reflexivity. }
      rewrite Es, (in_minus V veq veq_spec).
      rewrite (i_cache _ _ _ H k s0); [tauto|]. unfold IndexModel.t_get. rewrite F. reflexivity.
    + rewrite (H2 Hk) in E. rewrite (i_cache _ _ _ H k s E). tauto.
  - intros k P. apply not_in_nil. intros x.
    rewrite (each_add K V keq veq keq_spec veq_spec), (i_pend _ _ _ H k P).
    intros [[]|[Hk _]]. apply (A k Hk P).
  - apply (i_free _ _ _ H).
  - apply (i_empty _ _ _ H).
  - intros k N. destruct (in_dec_k K keq keq_spec k ks) as [Hk|Hk].
    + right. split; [exact Hk|exact Hv].
    + left. apply (i_drop _ _ _ H). intros E. apply N. apply not_in_nil. intros x.
      rewrite (each_add K V keq veq keq_spec veq_spec), E. cbn. tauto.
  - intros E. rewrite (i_ever _ _ _ H E). apply each_nil. apply drop_nil.
  - apply (i_ever2 _ _ _ H).
Qed.

Lemma inv_store g m ix ks v : inv g m ix ->
  inv (ghost_step K V g (Store K V ks v)) (spec_step K V m (Store K V ks v)) (index_store K V keq ix ks v).
Proof using keq_spec veq_spec.
  intros H. unfold index_store.
  pose proof (fun t k => tget_each _ _ ks (local_store K V keq keq_spec (Val V v)) (idem_store V (Val V v)) t k) as TS.
  pose proof (fun t k => get_each K V keq keq_spec _ _ ks (local_store K V keq keq_spec (Val V v)) (idem_store V (Val V v)) t k) as TH.
  constructor; cbn.
  - apply (i_lvl _ _ _ H).
  - apply safe_each; [apply safe_replace; exact keq_spec | apply (i_nc _ _ _ H)].
  - apply safe_each; [apply safe_remove | apply (i_na _ _ _ H)].
  - apply safe_each; [apply safe_remove | apply (i_nd _ _ _ H)].
  - apply safe_each; [apply safe_store; exact keq_spec | apply (i_ns _ _ _ H)].
  - intros k x. unfold IndexProofs.seen, IndexProofs.based. cbn.
    rewrite !(each_remove K V keq keq_spec).
    rewrite <- (i_map _ _ _ H k x). unfold IndexProofs.seen, IndexProofs.based.
    destruct (TS (stores ix) k) as [T1 T2].
    destruct (in_dec_k K keq keq_spec k ks) as [Hk|Hk].
    + rewrite (T1 Hk). cbn. tauto.
    + rewrite (T2 Hk). tauto.
  - intros k s E x.
    destruct (tget_each _ _ ks (local_replace K V keq keq_spec (Val V v)) (idem_replace V (Val V v)) (cache ix) k) as [H1 H2].
    destruct (in_dec_k K keq keq_spec k ks) as [Hk|Hk].
    + rewrite (H1 Hk) in E. unfold f_replace in E.
      destruct (t_find k (cache ix)); [|discriminate]. injection E as <-. tauto.
    + rewrite (H2 Hk) in E. rewrite (i_cache _ _ _ H k s E). tauto.
  - intros k P. apply not_in_nil. intros x. rewrite (each_remove K V keq keq_spec).
    intros [Hx Hk]. destruct P as [P|P]; [contradiction|].
    rewrite (i_pend _ _ _ H k P) in Hx. destruct Hx.
  - intros k N. assert (Hk : ~ In k ks) by tauto. assert (Np : ~ pend K g k) by tauto.
    destruct (TS (stores ix) k) as [_ T2]. rewrite (T2 Hk). apply (i_free _ _ _ H k Np).
  - intros k E. destruct (TS (stores ix) k) as [T1 T2].
    destruct (in_dec_k K keq keq_spec k ks) as [Hk|Hk].
    + left. rewrite (T1 Hk) in E. cbn in E. injection E as ->. tauto.
    + right. rewrite (T2 Hk) in E. split; [exact Hk|]. apply (i_empty _ _ _ H k E).
  - intros k N. destruct (in_dec_k K keq keq_spec k ks) as [Hk|Hk].
    + exfalso. apply N. apply not_in_nil. intros x. rewrite (each_remove K V keq keq_spec). tauto.
    + split; [|exact Hk]. apply (i_drop _ _ _ H). intros E. apply N. apply not_in_nil. intros x.
      rewrite (each_remove K V keq keq_spec), E. cbn. tauto.
  - intros E. rewrite (i_ever _ _ _ H E). apply each_nil. reflexivity.
  - apply (i_ever2 _ _ _ H).
Qed.

Lemma tget_filter_void (t : table) k s :
  t_get k (filter (fun p => match snd p with Void _ => false | _ => true end) t) = Some s ->
  NoDup (keys t) -> t_get k t = Some s.
Proof using keq_spec.
  intros E N. unfold IndexModel.t_get in *.
  induction t as [|[k1 v1] r IH]; [discriminate|].
  cbn [keys map fst] in N. inversion N; subst.
  cbn [filter snd] in E. cbn [IndexModel.t_find].
  destruct v1 as [|s1].
  - destruct (keq_cases K keq keq_spec k k1) as [[E1 E2]|[E1 E2]]; rewrite E1.
    + subst k1. specialize (IH E H2).
      assert (F : t_find k r = None) by (apply (find_none K V keq keq_spec); exact H1).
      rewrite F in IH. discriminate.
    + apply IH; assumption.
  - cbn [IndexModel.t_find] in E. destruct (keq k k1); [exact E|]. apply IH; assumption.
Qed.

Lemma keys_nil (t : table) : keys t = [] -> t = [].
Proof using. destruct t; [reflexivity|discriminate]. Qed.

Lemma inv_swapout_all g m ix : inv g m ix -> inv g m (index_swapout_all K V ix).
Proof using.
  intros H. unfold index_swapout_all. destruct (noswap ix); [exact H|].
  apply inv_cache; [exact H| constructor | discriminate | reflexivity].
Qed.

Lemma inv_swapout g m ix ks : inv g m ix -> inv g m (index_swapout K V keq ix ks).
Proof using keq_spec.
  intros H. unfold index_swapout. destruct (noswap ix); [exact H|].
  destruct (cache ix) as [|p q] eqn:C; [exact H|]. rewrite <- C in *.
  assert (HE : ever K g = true).
  { destruct (ever K g) eqn:E; [reflexivity|]. rewrite (i_ever _ _ _ H E) in C. discriminate. }
  destruct ks as [|k [|k2 r]].
  - apply inv_cache; [exact H | apply nodup_filter; apply safe_each; [apply safe_replace; exact keq_spec | apply (i_nc _ _ _ H)] | | congruence].
    intros k s E. apply tget_filter_void in E; [|apply safe_each; [apply safe_replace; exact keq_spec | apply (i_nc _ _ _ H)]].
    apply (i_cache _ _ _ H k s E).
  - apply inv_cache; [exact H | apply safe_store; [exact keq_spec | apply (i_nc _ _ _ H)] | | congruence].
    intros k' s E. rewrite tget_store in E. destruct (keq k' k); [discriminate|].
    apply (i_cache _ _ _ H k' s E).
  - set (ks := k :: k2 :: r).
    assert (N : NoDup (keys (each K V (t_replace K V keq (Void V)) ks (cache ix)))).
    { apply safe_each; [apply safe_replace; exact keq_spec | apply (i_nc _ _ _ H)]. }
    apply inv_cache; [exact H | apply nodup_filter; exact N | | congruence].
    intros k' s E. apply tget_filter_void in E; [|exact N].
    destruct (tget_each _ _ ks (local_replace K V keq keq_spec (Void V)) (idem_replace V (Void V)) (cache ix) k') as [H1 H2].
    destruct (in_dec_k K keq keq_spec k' ks) as [Hk|Hk].
    + rewrite (H1 Hk) in E. unfold f_replace in E. destruct (t_find k' (cache ix)); discriminate.
    + rewrite (H2 Hk) in E. apply (i_cache _ _ _ H k' s E).
Qed.

Lemma inv_setcache g m ix lv : inv g m ix ->
  inv (ghost_step K V g (SetCache K V lv)) m (index_setcache K V ix lv).
Proof using.
  intros H. destruct H. constructor; cbn; auto.
  - intros E. apply orb_false_iff in E. apply i_ever0. apply E.
  - intros E. apply orb_false_iff in E. apply E.
Qed.

Lemma fetched_right g m ix k x : inv g m ix -> ~ pend K g k ->
  In x (fetched_value K V keq veq ix k) <-> m k x.
Proof using veq_spec.
  intros H N. unfold fetched_value. rewrite (in_edit K V keq veq veq_spec).
  rewrite <- (i_map _ _ _ H k x). unfold IndexProofs.seen, IndexProofs.based.
  destruct (i_free _ _ _ H k N) as [E|[E E']]; rewrite E; [reflexivity|].
  rewrite E'. reflexivity.
Qed.

Definition right (m : amap K V) (c : table) : Prop :=
  forall k s, t_get k c = Some s -> forall x, In x s <-> m k x.

Lemma right_store m c k s : right m c -> (forall x, In x s <-> m k x) ->
  right m (t_store K V keq (Val V s) c k).
Proof using keq_spec.
  intros R E k' s'. rewrite tget_store.
  destruct (keq_cases K keq keq_spec k' k) as [[E1 E2]|[E1 E2]]; rewrite E1.
  - intros [= <-]. subst. exact E.
  - apply R.
Qed.

Lemma scan_right g m ix ks : inv g m ix -> forall c n,
  right m c -> NoDup (keys c) ->
  let r := fold_left
    (fun cn k =>
       let '(c, needed) := cn in
       if t_probe K V keq k c then (c, needed)
       else match t_get k (stores ix) with
            | Some s => (t_store K V keq (Val V (edit_result K V keq veq ix k s)) c k, needed)
            | None => (c, needed ++ [k])
            end) ks (c, n) in
  right m (fst r) /\ NoDup (keys (fst r)) /\ (forall k, In k (snd r) -> In k n \/ In k ks).
Proof using keq_spec veq_spec.
  intros H. induction ks as [|a r IH]; intros c n R N; cbn [fold_left].
  - cbn. split; [exact R|]. split; [exact N|]. auto.
  - destruct (t_probe K V keq a c).
    + destruct (IH c n R N) as [A [B C]]. split; [exact A|]. split; [exact B|].
      intros k Hk. destruct (C k Hk); [tauto|]. right. right. assumption.
    + destruct (t_get a (stores ix)) as [s|] eqn:E.
      * edestruct (IH (t_store K V keq (Val V (edit_result K V keq veq ix a s)) c a) n) as [A [B C]].
        -- apply right_store; [exact R|]. intros x. rewrite (in_edit K V keq veq veq_spec).
           rewrite <- (i_map _ _ _ H a x). unfold IndexProofs.seen, IndexProofs.based. rewrite E. reflexivity.
        -- apply safe_store; assumption.
        -- split; [exact A|]. split; [exact B|]. intros k Hk. destruct (C k Hk); [tauto|]. right. right. assumption.
      * destruct (IH c (n ++ [a]) R N) as [A [B C]]. split; [exact A|]. split; [exact B|].
        intros k Hk. destruct (C k Hk) as [Hn|Hn]; [|right; right; exact Hn].
        apply in_app_iff in Hn. destruct Hn as [Hn|[Hn|[]]]; [tauto|]. subst. right. left. reflexivity.
Qed.

Lemma fill_right g m ix l : inv g m ix -> (forall k, In k l -> ~ pend K g k) -> forall c,
  right m c -> NoDup (keys c) ->
  let c' := fold_left (fun c k => t_store K V keq (Val V (fetched_value K V keq veq ix k)) c k) l c in
  right m c' /\ NoDup (keys c').
Proof using keq_spec veq_spec.
  intros H. induction l as [|a r IH]; intros P c R N; cbn [fold_left]; [split; assumption|].
  apply IH.
  - intros k Hk. apply P. right. exact Hk.
  - apply right_store; [exact R|]. intros x. apply (fetched_right g m ix a x H).
    apply P. left. reflexivity.
  - apply safe_store; assumption.
Qed.

Lemma inv_prefetch g m ix ks : inv g m ix -> allowed K V g (Prefetch K V ks) ->
  inv g m (index_prefetch K V keq veq ix ks).
Proof using keq_spec veq_spec.
  intros H A. unfold index_prefetch. destruct (level ix) eqn:L; cbn [negb]; [|exact H].
  assert (HE : ever K g = true).
  { destruct (ever K g) eqn:E; [reflexivity|].
    apply (i_ever2 _ _ _ H) in E. rewrite <- (i_lvl _ _ _ H), L in E. discriminate. }
  assert (S1 : forall c needed, right m c -> NoDup (keys c) -> (forall k, In k needed -> In k ks) ->
    inv g m (with_cache K V ix (fold_left (fun c k => t_store K V keq (Val V (fetched_value K V keq veq ix k)) c k) needed c))).
  { intros c needed R N I.
    destruct (fill_right g m ix needed H (fun k Hk => A k (I k Hk)) c R N) as [R' N'].
    apply inv_cache; [exact H | exact N' | exact R' | congruence]. }
  assert (S2 : inv g m (let '(c, needed) :=
      if existsb (fun k => t_probe K V keq k (cache ix)) ks
        then prefetch_scan K V keq veq ix ks
        else (cache ix, ks) in
    with_cache K V ix
      (fold_left (fun c k => t_store K V keq (Val V (fetched_value K V keq veq ix k)) c k) needed c))).
  { destruct (existsb (fun k => t_probe K V keq k (cache ix)) ks).
    - unfold prefetch_scan.
      destruct (scan_right g m ix ks H (cache ix) [] (i_cache _ _ _ H) (i_nc _ _ _ H)) as [R [N I]].
      destruct (fold_left _ ks (cache ix, [])) as [c needed]. cbn [fst snd] in *.
      apply S1; [exact R | exact N |]. intros k Hk. destruct (I k Hk) as [[]|Hk']. exact Hk'.
    - apply S1; [exact (i_cache _ _ _ H) | apply (i_nc _ _ _ H) | auto]. }
  destruct ks as [|k [|k2 r]]; [exact S2 | | exact S2].
  apply S1; [exact (i_cache _ _ _ H) | apply (i_nc _ _ _ H) |].
  intros k'. destruct (t_probe K V keq k (cache ix)); [intros []|auto].
Qed.

(** ** Commits *)

Lemma fst_merge1 (ix : index) kv : fst (merge1 K V keq veq (adds ix) (drops ix) kv) = fst kv.
Proof using.
  unfold merge1. destruct (htget (adds ix) (fst kv)), (htget (drops ix) (fst kv)); reflexivity.
Qed.

Lemma in_merge1 (ix : index) k v x :
  In x (snd (merge1 K V keq veq (adds ix) (drops ix) (k, v))) <->
  (In x v \/ In x (htget (adds ix) k)) /\ ~ In x (htget (drops ix) k).
Proof using veq_spec.
  unfold merge1. cbn [fst snd].
  destruct (htget (adds ix) k) as [|y r] eqn:A; destruct (htget (drops ix) k) as [|z q] eqn:D; cbn [snd].
  - cbn [In]. tauto.
  - rewrite (in_minus V veq veq_spec), (in_union V veq veq_spec). reflexivity.
  - rewrite (in_union V veq veq_spec). cbn [In]. tauto.
  - rewrite (in_minus V veq veq_spec), (in_union V veq veq_spec). reflexivity.
Qed.

Section Commit.

Variable ix : index.
Hypothesis Na : NoDup (keys (adds ix)).
Hypothesis Nd : NoDup (keys (drops ix)).
Hypothesis Ns : NoDup (keys (stores ix)).

Let a := keyvals K V false (adds ix).
Let d := keyvals K V false (drops ix).
Let s := keyvals K V true (stores ix).
Let m := merged_keys K V keq (adds ix) (drops ix) s.
Let s' := map (merge1 K V keq veq (adds ix) (drops ix)) s.
Let a' := remove_merged K V keq m a.
Let d' := remove_merged K V keq m d.

Lemma assoc_s' k : assoc K V keq k s' =
  match t_get k (stores ix) with
  | Some v => Some (snd (merge1 K V keq veq (adds ix) (drops ix) (k, v)))
  | None => None
  end.
Proof using keq_spec Ns.
  clear a d m a' d'.
  assert (E : assoc K V keq k s = t_get k (stores ix)).
  { unfold s. rewrite (keyvals_assoc K V keq keq_spec) by exact Ns.
    destruct (t_get k (stores ix)) as [[|]|]; reflexivity. }
  rewrite <- E. unfold s'. clearbody s. clear s' E.
  induction s as [|[k1 v1] r IH]; [reflexivity|].
  cbn [map assoc].
  pose proof (fst_merge1 ix (k1, v1)) as F. cbn [fst] in F.
  destruct (merge1 K V keq veq (adds ix) (drops ix) (k1, v1)) as [k1' v1'] eqn:M. cbn [fst] in F. subst k1'.
  cbn [assoc].
  destruct (keq_cases K keq keq_spec k k1) as [[E1 E2]|[E1 E2]]; rewrite E1; [|exact IH].
  subst k1. rewrite M. reflexivity.
Qed.

Lemma nodup_s' : NoDup (map fst s').
Proof using keq_spec Ns.
  unfold s'. rewrite map_map. erewrite map_ext; [|intros kv; apply fst_merge1].
  apply keyvals_nodup. exact Ns.
Qed.

Lemma nodup_a' : NoDup (map fst a').
Proof using keq_spec Na. apply nodup_merged; [exact keq_spec|]. apply keyvals_nodup. exact Na. Qed.
Lemma nodup_d' : NoDup (map fst d').
Proof using keq_spec Nd. apply nodup_merged; [exact keq_spec|]. apply keyvals_nodup. exact Nd. Qed.

Lemma olist_kv t k : NoDup (keys t) ->
  olist V (assoc K V keq k (keyvals K V false t)) = htget t k.
Proof using keq_spec.
  intros N. rewrite (keyvals_assoc K V keq keq_spec) by exact N.
  unfold IndexModel.htget. destruct (t_get k t) as [[|]|]; reflexivity.
Qed.

Lemma merged_stored k : In k m -> t_get k (stores ix) <> None.
Proof using keq_spec Ns.
  unfold m, merged_keys. rewrite in_flat_map. intros [[k1 v1] [H1 H2]] E.
  assert (k1 = k).
  { cbn [fst] in H2. destruct (htget (adds ix) k1), (htget (drops ix) k1); cbn in H2; tauto. }
  subst k1.
  assert (F : assoc K V keq k s <> None).
  { intros F. apply (assoc_none K V keq keq_spec) in F. apply F. apply (in_map fst) in H1. exact H1. }
  unfold s in F. rewrite (keyvals_assoc K V keq keq_spec) in F by exact Ns. rewrite E in F. contradiction.
Qed.

(** The adds left for a key, and the drops left. *)
Lemma left_over t k : NoDup (keys t) ->
  htget (drop_all K V keq veq (remove_merged K V keq m (keyvals K V false t)) t) k =
  if sole K keq m k then htget t k else [].
Proof using keq_spec veq_spec.
  intros N.
  assert (N' : NoDup (map fst (remove_merged K V keq m (keyvals K V false t)))).
  { apply nodup_merged; [exact keq_spec|]. apply keyvals_nodup. exact N. }
  unfold drop_all. rewrite !htget_velts.
  rewrite (find_fold K V keq keq_spec (t_drop K V keq veq) (f_drop V veq))
    by (try exact N'; intros v; apply local_drop; exact keq_spec).
  rewrite (assoc_merged K V keq keq_spec) by (apply keyvals_nodup; exact N).
  destruct (sole K keq m k); [reflexivity|].
  rewrite (keyvals_assoc K V keq keq_spec) by exact N.
  unfold IndexModel.t_get. destruct (t_find k t) as [[|[|y r]]|]; try reflexivity.
  unfold f_drop. cbn [velts].
  replace (minus V veq (y :: r) (y :: r)) with (@nil V); [reflexivity|].
  symmetry. apply not_in_nil. intros x. rewrite (in_minus V veq veq_spec). tauto.
Qed.

Lemma left_store k :
  t_get k (drop_all K V keq veq s' (stores ix)) =
  match t_get k (stores ix) with
  | None => None
  | Some v => match f_drop V veq (snd (merge1 K V keq veq (adds ix) (drops ix) (k, v))) (Some (Val V v)) with
              | Some (Val _ w) => Some w
              | _ => None
              end
  end.
Proof using keq_spec Ns.
  unfold drop_all. unfold IndexModel.t_get at 1.
  rewrite (find_fold K V keq keq_spec (t_drop K V keq veq) (f_drop V veq))
    by (try exact nodup_s'; intros v; apply local_drop; exact keq_spec).
  rewrite assoc_s'. unfold IndexModel.t_get.
  destruct (t_find k (stores ix)) as [[|v]|]; reflexivity.
Qed.

Lemma disk_after k x :
  In x (log_fetch (log_save K V (disk ix) a' d' s') k) <->
  (In x (based ix k) \/ In x (htget (adds ix) k)) /\ ~ In x (htget (drops ix) k).
Proof using keq_spec veq_spec Na Nd Ns.
  rewrite (fetch_save K V keq veq keq_spec veq_spec); [|exact nodup_a'|exact nodup_d'|exact nodup_s'].
  rewrite assoc_s'. unfold IndexProofs.based.
  destruct (t_get k (stores ix)) as [v|] eqn:E.
  - apply in_merge1.
  - assert (F : sole K keq m k = false).
    { destruct (sole K keq m k) eqn:F; [|reflexivity].
      apply (sole_in K keq keq_spec) in F. apply merged_stored in F. contradiction. }
    unfold a', d'. rewrite !(assoc_merged K V keq keq_spec) by (apply keyvals_nodup; assumption).
    rewrite F. unfold a, d. rewrite !olist_kv by assumption. reflexivity.
Qed.

End Commit.

Lemma inv_commit g m ix : inv g m ix ->
  inv (ghost_step K V g (Commit K V true)) m (index_commit K V keq veq true ix).
Proof using keq_spec veq_spec.
  intros H. pose proof (i_na _ _ _ H) as Na. pose proof (i_nd _ _ _ H) as Nd. pose proof (i_ns _ _ _ H) as Ns.
  unfold index_commit.
  set (mk := merged_keys K V keq (adds ix) (drops ix) (keyvals K V true (stores ix))).
  pose proof (disk_after ix Na Nd Ns) as DA. cbv zeta in DA.
  fold mk in DA.
  set (dk := log_save K V (disk ix) (remove_merged K V keq mk (keyvals K V false (adds ix)))
               (remove_merged K V keq mk (keyvals K V false (drops ix)))
               (map (merge1 K V keq veq (adds ix) (drops ix)) (keyvals K V true (stores ix)))) in *.
  (* what remains of a store: nothing, or the empty value when the file has nothing *)
  assert (LS : forall k, let o := t_get k (drop_all K V keq veq (map (merge1 K V keq veq (adds ix) (drops ix)) (keyvals K V true (stores ix))) (stores ix)) in
     o = None \/ (o = Some [] /\ t_get k (stores ix) = Some [] /\ log_fetch dk k = [])).
  { intros k. cbv zeta. rewrite (left_store ix Ns k).
    destruct (t_get k (stores ix)) as [v|] eqn:E; [|left; reflexivity].
    assert (SD : forall x, In x v -> ~ In x (htget (drops ix) k)).
    { intros x Hx Hd. destruct (i_free _ _ _ H k) as [F|[F _]].
      - intros P. rewrite (i_pend _ _ _ H k P) in Hd. destruct Hd.
      - congruence.
      - rewrite E in F. injection F as ->. destruct Hx. }
    destruct (snd (merge1 K V keq veq (adds ix) (drops ix) (k, v))) as [|y r] eqn:M.
    - cbn [f_drop].
      assert (v = []).
      { apply not_in_nil. intros x Hx.
        assert (X : In x (snd (merge1 K V keq veq (adds ix) (drops ix) (k, v)))).
        { apply in_merge1. split; [left; exact Hx | apply SD; exact Hx]. }
        rewrite M in X. destruct X. }
      subst v. right. split; [reflexivity|]. split; [reflexivity|].
      apply not_in_nil. intros x Hx. apply DA in Hx.
      unfold IndexProofs.based in Hx. rewrite E in Hx.
      apply in_merge1 in Hx. rewrite M in Hx. destruct Hx.
    - left. unfold f_drop. rewrite <- M.
      replace (minus V veq v (snd (merge1 K V keq veq (adds ix) (drops ix) (k, v)))) with (@nil V).
      { reflexivity. }
      symmetry. apply not_in_nil. intros x Hx.
      apply (in_minus V veq veq_spec) in Hx. destruct Hx as [Hx Hn]. apply Hn.
      apply in_merge1. split; [left; exact Hx | apply SD; exact Hx]. }
  constructor; cbn -[drop_all].
  - apply (i_lvl _ _ _ H).
  - apply (i_nc _ _ _ H).
  - apply safe_fold; [intros v; apply safe_drop; exact keq_spec | exact Na].
  - apply safe_fold; [intros v; apply safe_drop; exact keq_spec | exact Nd].
  - apply safe_fold; [intros v; apply safe_drop; exact keq_spec | exact Ns].
  - intros k x. rewrite <- (i_map _ _ _ H k x).
    unfold IndexProofs.seen at 1, IndexProofs.based. cbn -[drop_all].
    pose proof (left_over ix (adds ix) k Na) as LA. cbv zeta in LA. fold mk in LA. rewrite LA.
    pose proof (left_over ix (drops ix) k Nd) as LD. cbv zeta in LD. fold mk in LD. rewrite LD.
    unfold IndexProofs.seen.
    destruct (LS k) as [E|[E [E' F]]]; rewrite E.
    + rewrite (DA k x). destruct (sole K keq mk k); cbn [In]; tauto.
    + assert (X : forall x, ~ ((In x (based ix k) \/ In x (htget (adds ix) k)) /\ ~ In x (htget (drops ix) k))).
      { intros y Hy. apply DA in Hy. rewrite F in Hy. destruct Hy. }
      specialize (X x).
      destruct (sole K keq mk k); cbn [In]; tauto.
  - apply (i_cache _ _ _ H).
  - intros k [].
  - intros k _. destruct (LS k) as [E|[E [E' F]]]; [left; exact E | right; split; assumption].
  - intros k E. destruct (LS k) as [E1|[E1 [E2 F]]]; [congruence|]. apply (i_empty _ _ _ H k E2).
  - intros k N.
    pose proof (left_over ix (drops ix) k Nd) as LD. cbv zeta in LD. fold mk in LD. rewrite LD in N.
    destruct (sole K keq mk k) eqn:So; [|contradiction].
    split; [apply (i_drop _ _ _ H k N)|].
    apply (sole_in K keq keq_spec) in So. apply (merged_stored ix Ns) in So.
    destruct (i_free _ _ _ H k) as [F|[F _]].
    + intros P. apply N. apply (i_pend _ _ _ H k P).
    + contradiction.
    + apply (i_empty _ _ _ H k F).
  - apply (i_ever _ _ _ H).
  - apply (i_ever2 _ _ _ H).
Qed.

Lemma inv_step g m ix o : inv g m ix -> allowed K V g o ->
  inv (ghost_step K V g o) (spec_step K V m o) (step ix o).
Proof using keq_spec veq_spec.
  intros H A. destruct o as [ks v|ks v|ks v|ks v|k|ks|ks| |lv|ok].
  - apply inv_add; exact H.
  - apply inv_add_inline; assumption.
  - apply inv_drop; assumption.
  - apply inv_store; exact H.
  - apply inv_get; exact H.
  - apply inv_prefetch; assumption.
  - apply inv_swapout; exact H.
  - apply inv_swapout_all; exact H.
  - apply inv_setcache; exact H.
  - destruct ok; [apply inv_commit; exact H | exact H].
Qed.

Lemma inv_run l : forall g m ix, inv g m ix -> all_allowed K V g l ->
  inv (ghost_run K V g l) (spec_run K V m l) (run ix l).
Proof using keq_spec veq_spec.
  induction l as [|o r IH]; intros g m ix H A.
  - exact H.
  - destruct A as [A1 A2]. cbn [fold_left]. apply (IH (ghost_step K V g o)); [|exact A2].
    apply inv_step; assumption.
Qed.

Lemma disk_commit g m ix k x : inv g m ix ->
  In x (log_fetch (disk (index_commit K V keq veq true ix)) k) <-> m k x.
Proof using keq_spec veq_spec.
  intros H. rewrite <- (i_map _ _ _ H k x).
  pose proof (disk_after ix (i_na _ _ _ H) (i_nd _ _ _ H) (i_ns _ _ _ H) k x) as DA. exact DA.
Qed.

End P.

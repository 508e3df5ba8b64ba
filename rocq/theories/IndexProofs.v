(** Lemmas about the index model. *)

From Coq Require Import List Bool NArith Lia.
From Verif Require Import IndexModel.
Import ListNotations.

Section P.

Variable K V : Type.
Variable keq : K -> K -> bool.
Variable veq : V -> V -> bool.
Hypothesis keq_spec : forall a b, keq a b = true <-> a = b.
Hypothesis veq_spec : forall a b, veq a b = true <-> a = b.

Notation table := (table K V).
Notation tval := (tval V).
Notation mem := (mem V veq).
Notation union := (union V veq).
Notation minus := (minus V veq).
Notation t_find := (t_find K V keq).
Notation t_put := (t_put K V keq).
Notation t_del := (t_del K V keq).
Notation t_get := (t_get K V keq).
Notation htget := (htget K V keq).
Notation t_probe := (t_probe K V keq).
Notation t_store := (t_store K V keq).
Notation t_replace := (t_replace K V keq).
Notation t_add := (t_add K V keq veq).
Notation t_add_if_present := (t_add_if_present K V keq veq).
Notation t_drop := (t_drop K V keq veq).
Notation t_remove := (t_remove K V keq).
Notation each := (each K V).
Notation index := (index K V).
Notation entry := (entry K V).

(** ** Choices *)

Lemma keq_refl k : keq k k = true.
Proof using keq_spec. apply keq_spec; reflexivity. Qed.

Lemma keq_cases a b : (keq a b = true /\ a = b) \/ (keq a b = false /\ a <> b).
Proof using keq_spec.
  destruct (keq a b) eqn:E.
  - left; split; [reflexivity | apply keq_spec; exact E].
  - right; split; [reflexivity|]. intros ->. rewrite keq_refl in E. discriminate.
Qed.

Lemma keq_neq a b : a <> b -> keq a b = false.
Proof using keq_spec. intros H. destruct (keq_cases a b) as [[_ E]|[E _]]; [contradiction|exact E]. Qed.

Lemma mem_In x s : mem x s = true <-> In x s.
Proof using veq_spec.
  unfold IndexModel.mem. rewrite existsb_exists. split.
  - intros [y [H E]]. apply veq_spec in E. subst. exact H.
  - intros H. exists x. split; [exact H|]. apply veq_spec; reflexivity.
Qed.

Lemma mem_not x s : negb (mem x s) = true <-> ~ In x s.
Proof using veq_spec.
  rewrite negb_true_iff. split.
  - intros E H. apply mem_In in H. congruence.
  - intros H. destruct (mem x s) eqn:E; [|reflexivity]. apply mem_In in E. contradiction.
Qed.

Lemma in_dec_v (x : V) s : In x s \/ ~ In x s.
Proof using veq_spec.
  destruct (mem x s) eqn:E; [left; apply mem_In; exact E|].
  right. apply mem_not. rewrite E. reflexivity.
Qed.

Lemma in_dec_k (k : K) ks : In k ks \/ ~ In k ks.
Proof using keq_spec.
  induction ks as [|a r IH]; [right; intros []|].
  destruct (keq_cases a k) as [[_ E]|[_ E]].
  - left; left; exact E.
  - destruct IH as [H|H]; [left; right; exact H|].
    right. intros [E'|H']; contradiction.
Qed.

Lemma in_union x a b : In x (union a b) <-> In x a \/ In x b.
Proof using veq_spec.
  unfold IndexModel.union. rewrite in_app_iff, filter_In, mem_not.
  destruct (in_dec_v x a); tauto.
Qed.

Lemma in_minus x a b : In x (minus a b) <-> In x a /\ ~ In x b.
Proof using veq_spec. unfold IndexModel.minus. rewrite filter_In, mem_not. tauto. Qed.

Lemma filter_none (f : V -> bool) l : (forall x, In x l -> f x = false) -> filter f l = [].
Proof using.
  induction l as [|a r IH]; intros H; [reflexivity|].
  cbn [filter]. rewrite (H a) by (left; reflexivity). apply IH.
  intros x Hx. apply H. right. exact Hx.
Qed.

Lemma union_self v : union v v = v.
Proof using veq_spec.
  unfold IndexModel.union. rewrite filter_none; [apply app_nil_r|].
  intros x H. apply negb_false_iff. apply mem_In. exact H.
Qed.

Lemma union_twice s v : union (union s v) v = union s v.
Proof using veq_spec.
  unfold IndexModel.union at 1. rewrite filter_none; [apply app_nil_r|].
  intros x H. apply negb_false_iff. apply mem_In. apply in_union. right. exact H.
Qed.

Lemma minus_twice s v : minus (minus s v) v = minus s v.
Proof using.
  unfold IndexModel.minus. induction s as [|a r IH]; [reflexivity|].
  cbn [filter]. destruct (negb (mem a v)) eqn:E; [|exact IH].
  cbn [filter]. rewrite E. f_equal. exact IH.
Qed.

Lemma nil_iff (s : list V) : s = [] <-> forall x, ~ In x s.
Proof using.
  split; [intros -> x []|]. intros H. destruct s as [|a r]; [reflexivity|].
  destruct (H a). left. reflexivity.
Qed.

(** ** Tables *)

Lemma find_put k v t k' :
  t_find k' (t_put k v t) = if keq k' k then Some v else t_find k' t.
Proof using keq_spec.
  induction t as [|[k1 v1] r IH]; cbn [IndexModel.t_put IndexModel.t_find].
  - reflexivity.
  - destruct (keq_cases k k1) as [[E1 E1']|[E1 E1']]; rewrite E1; cbn [IndexModel.t_find].
    + subst k1. destruct (keq k' k); reflexivity.
    + rewrite IH. destruct (keq_cases k' k1) as [[E2 E2']|[E2 E2']]; rewrite E2; [|reflexivity].
      subst k'. rewrite (keq_neq k1 k); [reflexivity | congruence].
Qed.

Lemma find_del k t k' :
  t_find k' (t_del k t) = if keq k' k then None else t_find k' t.
Proof using keq_spec.
  unfold IndexModel.t_del.
  induction t as [|[k1 v1] r IH]; cbn [filter IndexModel.t_find fst].
  - destruct (keq k' k); reflexivity.
  - destruct (keq_cases k k1) as [[E1 E1']|[E1 E1']]; rewrite E1; cbn [negb IndexModel.t_find].
    + rewrite IH. subst k1. destruct (keq k' k); reflexivity.
    + rewrite IH. destruct (keq_cases k' k1) as [[E2 E2']|[E2 E2']]; rewrite E2; [|reflexivity].
      subst k'. rewrite (keq_neq k1 k); [reflexivity | congruence].
Qed.

(** What an operation does to the entry of its key. *)
Definition local (op : table -> K -> table) (f : option tval -> option tval) : Prop :=
  forall t k k', t_find k' (op t k) = if keq k' k then f (t_find k' t) else t_find k' t.

Definition f_store (v : tval) (o : option tval) : option tval := Some v.
Definition f_replace (v : tval) (o : option tval) : option tval :=
  match o with Some _ => Some v | None => None end.
Definition f_add (v : list V) (o : option tval) : option tval :=
  match v with
  | [] => o
  | _ => match o with
         | Some (Val _ s) => Some (Val V (union s v))
         | _ => Some (Val V v)
         end
  end.
Definition f_add_ip (v : list V) (o : option tval) : option tval :=
  match v with
  | [] => o
  | _ => match o with
         | Some (Val _ s) => Some (Val V (union s v))
         | _ => o
         end
  end.
Definition f_drop (v : list V) (o : option tval) : option tval :=
  match v with
  | [] => o
  | _ => match o with
         | Some (Val _ s) =>
           match minus s v with [] => None | s' => Some (Val V s') end
         | _ => o
         end
  end.
Definition f_remove (o : option tval) : option tval := None.

Lemma local_store v : local (t_store v) (f_store v).
Proof using keq_spec. intros t k k'. unfold IndexModel.t_store. apply find_put. Qed.

Lemma same_find k k' t : keq k' k = true -> t_find k' t = t_find k t.
Proof using keq_spec. intros E. apply keq_spec in E. subst. reflexivity. Qed.

Lemma local_replace v : local (t_replace v) (f_replace v).
Proof using keq_spec.
  intros t k k'. unfold IndexModel.t_replace, IndexModel.t_probe, f_replace.
  destruct (keq k' k) eqn:E.
  - rewrite (same_find _ _ t E).
    destruct (t_find k t) eqn:F; [rewrite find_put, E; reflexivity|].
    rewrite (same_find _ _ t E). exact F.
  - destruct (t_find k t); [rewrite find_put, E|]; reflexivity.
Qed.

Lemma local_add v : local (t_add v) (f_add v).
Proof using keq_spec.
  intros t k k'. unfold IndexModel.t_add, f_add. destruct v as [|a r].
  - destruct (keq k' k); reflexivity.
  - destruct (keq k' k) eqn:E.
    + rewrite (same_find _ _ t E).
      destruct (t_find k t) as [[|s]|] eqn:F; rewrite find_put, E; reflexivity.
    + destruct (t_find k t) as [[|s]|] eqn:F; rewrite find_put, E; reflexivity.
Qed.

Lemma local_add_ip v : local (t_add_if_present v) (f_add_ip v).
Proof using keq_spec.
  intros t k k'. unfold IndexModel.t_add_if_present, f_add_ip. destruct v as [|a r].
  - destruct (keq k' k); reflexivity.
  - destruct (keq k' k) eqn:E.
    + rewrite (same_find _ _ t E).
      destruct (t_find k t) as [[|s]|] eqn:F.
      * rewrite (same_find _ _ t E); exact F.
      * rewrite find_put, E; reflexivity.
      * rewrite (same_find _ _ t E); exact F.
    + destruct (t_find k t) as [[|s]|] eqn:F; try reflexivity.
      rewrite find_put, E; reflexivity.
Qed.

Lemma local_drop v : local (t_drop v) (f_drop v).
Proof using keq_spec.
  intros t k k'. unfold IndexModel.t_drop, f_drop. destruct v as [|a r].
  - destruct (keq k' k); reflexivity.
  - destruct (keq k' k) eqn:E.
    + rewrite (same_find _ _ t E).
      destruct (t_find k t) as [[|s]|] eqn:F.
      * rewrite (same_find _ _ t E); exact F.
      * destruct (minus s (a :: r)); [rewrite find_del | rewrite find_put]; rewrite E; reflexivity.
      * rewrite (same_find _ _ t E); exact F.
    + destruct (t_find k t) as [[|s]|] eqn:F; try reflexivity.
      destruct (minus s (a :: r)); [rewrite find_del | rewrite find_put]; rewrite E; reflexivity.
Qed.

Lemma local_remove : local t_remove f_remove.
Proof using keq_spec. intros t k k'. unfold IndexModel.t_remove, f_remove. apply find_del. Qed.

Definition idem (f : option tval -> option tval) : Prop := forall o, f (f o) = f o.

Lemma idem_store v : idem (f_store v). Proof using. intros o; reflexivity. Qed.
Lemma idem_replace v : idem (f_replace v). Proof using. intros [o|]; reflexivity. Qed.
Lemma idem_remove : idem f_remove. Proof using. intros o; reflexivity. Qed.

Lemma idem_add v : idem (f_add v).
Proof using veq_spec.
  intros o. unfold f_add. destruct v as [|a r]; [reflexivity|].
  destruct o as [[|s]|].
  - rewrite union_self. reflexivity.
  - rewrite union_twice. reflexivity.
  - rewrite union_self. reflexivity.
Qed.

Lemma idem_add_ip v : idem (f_add_ip v).
Proof using veq_spec.
  intros o. unfold f_add_ip. destruct v as [|a r]; [reflexivity|].
  destruct o as [[|s]|]; try reflexivity. rewrite union_twice. reflexivity.
Qed.

Lemma idem_drop v : idem (f_drop v).
Proof using.
  intros o. unfold f_drop. destruct v as [|a r]; [reflexivity|].
  destruct o as [[|s]|]; try reflexivity.
  destruct (minus s (a :: r)) as [|b q] eqn:E; [reflexivity|].
  rewrite <- E, minus_twice, E. reflexivity.
Qed.

Lemma find_each op f ks : local op f -> idem f -> forall t k,
  (In k ks -> t_find k (each op ks t) = f (t_find k t)) /\
  (~ In k ks -> t_find k (each op ks t) = t_find k t).
Proof using keq_spec.
  intros L I. unfold IndexModel.each.
  induction ks as [|a r IH]; intros t k; cbn [fold_left].
  - split; [intros [] | reflexivity].
  - destruct (IH (op t a) k) as [H1 H2]. split.
    + intros H. destruct (keq_cases k a) as [[E E']|[E E']].
      * subst a. destruct (in_dec_k k r) as [Hr|Hr].
        -- rewrite (H1 Hr), (L t k k), keq_refl. apply I.
        -- rewrite (H2 Hr), (L t k k), keq_refl. reflexivity.
      * destruct H as [H|H]; [congruence|].
        rewrite (H1 H), (L t a k), E. reflexivity.
    + intros H. rewrite H2 by (intros Hr; apply H; right; exact Hr).
      rewrite (L t a k), keq_neq; [reflexivity|]. intros ->. apply H. left. reflexivity.
Qed.

(** ** No key twice *)

Definition keys (t : table) : list K := map fst t.

Lemma find_none k t : t_find k t = None <-> ~ In k (keys t).
Proof using keq_spec.
  induction t as [|[k1 v1] r IH]; cbn [IndexModel.t_find keys map fst].
  - split; [intros _ [] | reflexivity].
  - destruct (keq_cases k k1) as [[E E']|[E E']]; rewrite E.
    + subst. split; [discriminate|]. intros H. destruct H. left. reflexivity.
    + rewrite IH. split; intros H H'; apply H; [destruct H' as [H'|H']; [congruence|exact H']|right; exact H'].
Qed.

Lemma keys_put k v t : keys (t_put k v t) = if t_probe k t then keys t else keys t ++ [k].
Proof using keq_spec.
  unfold IndexModel.t_probe, keys.
  induction t as [|[k1 v1] r IH]; cbn [IndexModel.t_put IndexModel.t_find map fst]; [reflexivity|].
  destruct (keq k k1); cbn [map fst]; [reflexivity|].
  rewrite IH. destruct (t_find k r); reflexivity.
Qed.

Lemma nodup_put k v t : NoDup (keys t) -> NoDup (keys (t_put k v t)).
Proof using keq_spec.
  intros H. rewrite keys_put. unfold IndexModel.t_probe.
  destruct (t_find k t) eqn:F; [exact H|].
  apply find_none in F. induction (keys t) as [|a r IH]; cbn [app].
  - constructor; [intros []|constructor].
  - inversion H; subst. constructor.
    + rewrite in_app_iff. cbn [In]. intros [H'|[H'|[]]]; [contradiction|].
      subst. apply F. left. reflexivity.
    + apply IH; [assumption|]. intros H'. apply F. right. exact H'.
Qed.

Lemma nodup_filter (f : K * tval -> bool) t : NoDup (keys t) -> NoDup (keys (filter f t)).
Proof using.
  unfold keys. induction t as [|p r IH]; cbn [filter map]; intros H; [constructor|].
  inversion H; subst. destruct (f p); [|apply IH; assumption].
  cbn [map]. constructor; [|apply IH; assumption].
  intros Hin. apply H2. apply in_map_iff in Hin. destruct Hin as [q [E Hq]].
  apply filter_In in Hq. apply in_map_iff. exists q. split; [exact E | apply Hq].
Qed.

Lemma nodup_del k t : NoDup (keys t) -> NoDup (keys (t_del k t)).
Proof using. apply nodup_filter. Qed.

Definition safe (op : table -> K -> table) : Prop :=
  forall t k, NoDup (keys t) -> NoDup (keys (op t k)).

Lemma safe_store v : safe (t_store v). Proof using keq_spec. intros t k; apply nodup_put. Qed.
Lemma safe_replace v : safe (t_replace v).
Proof using keq_spec.
  intros t k H. unfold IndexModel.t_replace. destruct (t_probe k t); [apply nodup_put|]; exact H.
Qed.
Lemma safe_add v : safe (t_add v).
Proof using keq_spec.
  intros t k H. unfold IndexModel.t_add. destruct v; [exact H|].
  destruct (t_find k t) as [[|s]|]; apply nodup_put; exact H.
Qed.
Lemma safe_add_ip v : safe (t_add_if_present v).
Proof using keq_spec.
  intros t k H. unfold IndexModel.t_add_if_present. destruct v; [exact H|].
  destruct (t_find k t) as [[|s]|]; try exact H. apply nodup_put; exact H.
Qed.
Lemma safe_drop v : safe (t_drop v).
Proof using keq_spec.
  intros t k H. unfold IndexModel.t_drop. destruct v; [exact H|].
  destruct (t_find k t) as [[|s]|]; try exact H.
  destruct (minus s (v :: v0)); [apply nodup_del | apply nodup_put]; exact H.
Qed.
Lemma safe_remove : safe t_remove.
Proof using. intros t k. apply nodup_del. Qed.

Lemma safe_each op ks : safe op -> forall t, NoDup (keys t) -> NoDup (keys (each op ks t)).
Proof using.
  intros Hs. unfold IndexModel.each. induction ks as [|a r IH]; intros t H; cbn [fold_left]; [exact H|].
  apply IH. apply Hs. exact H.
Qed.

(** ** Lists of keys and values *)

Fixpoint assoc (k : K) (l : list (K * list V)) : option (list V) :=
  match l with
  | [] => None
  | (k', v) :: r => if keq k k' then Some v else assoc k r
  end.

Lemma assoc_none k l : assoc k l = None <-> ~ In k (map fst l).
Proof using keq_spec.
  induction l as [|[k1 v1] r IH]; cbn [assoc map fst].
  - split; [intros _ [] | reflexivity].
  - destruct (keq_cases k k1) as [[E E']|[E E']]; rewrite E.
    + subst. split; [discriminate|]. intros H. destruct H. left. reflexivity.
    + rewrite IH. split; intros H H'; apply H; [destruct H' as [H'|H']; [congruence|exact H']|right; exact H'].
Qed.

Lemma find_fold (op : list V -> table -> K -> table) f l :
  (forall v, local (op v) (f v)) -> NoDup (map fst l) -> forall t k,
  t_find k (fold_left (fun t kv => op (snd kv) t (fst kv)) l t)
  = match assoc k l with Some v => f v (t_find k t) | None => t_find k t end.
Proof using keq_spec.
  intros L. induction l as [|[k1 v1] r IH]; intros N t k; cbn [fold_left assoc fst snd]; [reflexivity|].
  cbn [map fst] in N. inversion N; subst. rewrite IH by assumption. rewrite (L v1 t k1 k).
  destruct (keq_cases k k1) as [[E E']|[E E']]; rewrite E; [|reflexivity].
  subst k1. replace (assoc k r) with (@None (list V)); [reflexivity|].
  symmetry. apply assoc_none. assumption.
Qed.

Lemma safe_fold (op : list V -> table -> K -> table) l :
  (forall v, safe (op v)) -> forall t, NoDup (keys t) ->
  NoDup (keys (fold_left (fun t kv => op (snd kv) t (fst kv)) l t)).
Proof using.
  intros Hs. induction l as [|kv r IH]; intros t H; cbn [fold_left]; [exact H|].
  apply IH. apply Hs. exact H.
Qed.

Notation keyvals := (keyvals K V).

Lemma keyvals_keys b t k : In k (map fst (keyvals b t)) -> In k (keys t).
Proof using.
  unfold IndexModel.keyvals, keys.
  induction t as [|[k1 v1] r IH]; cbn [flat_map map fst snd]; [intros []|].
  rewrite map_app, in_app_iff. intros [H|H]; [|right; apply IH; exact H].
  left. destruct v1 as [|[|x s]].
  - destruct H.
  - destruct b; cbn in H; [destruct H as [H|[]]; exact H | destruct H].
  - cbn in H. destruct H as [H|[]]. exact H.
Qed.

Lemma keyvals_nodup b t : NoDup (keys t) -> NoDup (map fst (keyvals b t)).
Proof using.
  induction t as [|[k1 v1] r IH]; intros H.
  - constructor.
  - cbn [keys map fst] in H. inversion H; subst.
    change (keyvals b ((k1, v1) :: r)) with
      (match v1 with
       | Void _ => []
       | Val _ [] => if b then [(k1, [])] else []
       | Val _ s => [(k1, s)]
       end ++ keyvals b r).
    specialize (IH H3).
    assert (Hn : ~ In k1 (map fst (keyvals b r))).
    { intros Hin. apply keyvals_keys in Hin. contradiction. }
    destruct v1 as [|[|x s]]; cbn [app].
    + exact IH.
    + destruct b; cbn [app map fst]; [constructor; assumption | exact IH].
    + cbn [map fst]. constructor; assumption.
Qed.

Lemma keyvals_assoc b t k : NoDup (keys t) ->
  assoc k (keyvals b t) =
  match t_get k t with
  | Some [] => if b then Some [] else None
  | o => o
  end.
Proof using keq_spec.
  unfold IndexModel.t_get.
  induction t as [|[k1 v1] r IH]; intros H; [reflexivity|].
  cbn [keys map fst] in H. inversion H; subst. specialize (IH H3).
  change (keyvals b ((k1, v1) :: r)) with
      (match v1 with
       | Void _ => []
       | Val _ [] => if b then [(k1, [])] else []
       | Val _ s => [(k1, s)]
       end ++ keyvals b r).
  cbn [IndexModel.t_find].
  destruct (keq_cases k k1) as [[E E']|[E E']]; rewrite E.
  - subst k1.
    assert (Hn : assoc k (keyvals b r) = None).
    { apply assoc_none. intros Hin. apply keyvals_keys in Hin. contradiction. }
    destruct v1 as [|[|x s]]; cbn [app].
    + exact Hn.
    + destruct b; cbn [app assoc]; [rewrite E; reflexivity | exact Hn].
    + cbn [assoc]. rewrite E. reflexivity.
  - destruct v1 as [|[|x s]]; cbn [app].
    + exact IH.
    + destruct b; cbn [app assoc]; [rewrite E|]; exact IH.
    + cbn [assoc]. rewrite E. exact IH.
Qed.

Notation remove_keyvals := (remove_keyvals K V keq).
Notation remove_merged := (remove_merged K V keq).

Lemma remove_none k l : ~ In k (map fst l) -> remove_keyvals k l = l.
Proof using keq_spec.
  induction l as [|[k1 v1] r IH]; intros H; [reflexivity|].
  cbn [IndexModel.remove_keyvals fst map] in *.
  rewrite keq_neq by (intros ->; apply H; left; reflexivity).
  f_equal. apply IH. intros H'. apply H. right. exact H'.
Qed.

Lemma remove_spec k l : NoDup (map fst l) ->
  remove_keyvals k l = filter (fun kv => negb (keq (fst kv) k)) l.
Proof using keq_spec.
  induction l as [|[k1 v1] r IH]; intros H; [reflexivity|].
  cbn [map fst] in H. inversion H; subst. specialize (IH H3).
  cbn [IndexModel.remove_keyvals fst filter].
  destruct (keq_cases k1 k) as [[E E']|[E E']]; rewrite E; cbn [negb].
  - subst k1.
    rewrite <- IH, (remove_none k r) by assumption.
    destruct r as [|[k2 v2] r2]; [reflexivity|].
    f_equal. apply remove_none. intros H'. apply H2. right. exact H'.
  - f_equal. exact IH.
Qed.

Lemma assoc_remove k0 l k : NoDup (map fst l) ->
  assoc k (remove_keyvals k0 l) = if keq k k0 then None else assoc k l.
Proof using keq_spec.
  intros H. rewrite remove_spec by exact H. clear H.
  induction l as [|[k1 v1] r IH]; cbn [filter assoc fst].
  - destruct (keq k k0); reflexivity.
  - destruct (keq_cases k1 k0) as [[E E']|[E E']]; rewrite E; cbn [negb assoc].
    + subst k1. rewrite IH. destruct (keq k k0) eqn:E2; reflexivity.
    + rewrite IH. destruct (keq_cases k k1) as [[E2 E2']|[E2 E2']]; rewrite E2; [|reflexivity].
      subst k1. rewrite E. reflexivity.
Qed.

Lemma nodup_remove k0 l : NoDup (map fst l) -> NoDup (map fst (remove_keyvals k0 l)).
Proof using keq_spec.
  intros H. rewrite remove_spec by exact H.
  induction l as [|p r IH]; cbn [filter map] in *; [constructor|].
  inversion H; subst. destruct (negb (keq (fst p) k0)); [|apply IH; assumption].
  cbn [map]. constructor; [|apply IH; assumption].
  intros Hin. apply H2. apply in_map_iff in Hin. destruct Hin as [q [E Hq]].
  apply filter_In in Hq. apply in_map_iff. exists q. split; [exact E | apply Hq].
Qed.

Lemma nodup_merged m l : NoDup (map fst l) -> NoDup (map fst (remove_merged m l)).
Proof using keq_spec.
  intros H. unfold IndexModel.remove_merged.
  destruct m as [|a [|b r]]; [exact H | apply nodup_remove; exact H | exact H].
Qed.

(** The keys removed: one merged key. *)
Definition sole (m : list K) (k : K) : bool :=
  match m with [a] => keq k a | _ => false end.

Lemma assoc_merged m l k : NoDup (map fst l) ->
  assoc k (remove_merged m l) = if sole m k then None else assoc k l.
Proof using keq_spec.
  intros H. unfold IndexModel.remove_merged, sole.
  destruct m as [|a [|b r]]; [reflexivity | apply assoc_remove; exact H | reflexivity].
Qed.

Lemma sole_in m k : sole m k = true -> In k m.
Proof using keq_spec.
  unfold sole. destruct m as [|a [|b r]]; try discriminate.
  intros E. apply keq_spec in E. left. symmetry. exact E.
Qed.

(** ** The log *)

Notation replay := (replay K V keq veq).
Notation replay1 := (replay1 K V keq veq).
Notation log_fetch := (log_fetch K V keq veq).
Notation log_save := (log_save K V).

Lemma replay_safe l : NoDup (keys (replay l)).
Proof using keq_spec.
  unfold IndexModel.replay.
  assert (H : forall t, NoDup (keys t) -> NoDup (keys (fold_left replay1 l t))).
  { induction l as [|e r IH]; intros t H; cbn [fold_left]; [exact H|].
    apply IH. destruct e; cbn [IndexModel.replay1].
    - apply safe_add; exact H.
    - apply safe_drop; exact H.
    - apply safe_store; exact H. }
  apply H. constructor.
Qed.

Lemma fold_map_add l t :
  fold_left replay1 (map (fun kv => LAdd K V (fst kv) (snd kv)) l) t
  = fold_left (fun t kv => t_add (snd kv) t (fst kv)) l t.
Proof using. revert t. induction l as [|kv r IH]; intros t; cbn [map fold_left]; [reflexivity|]. apply IH. Qed.

Lemma fold_map_drop l t :
  fold_left replay1 (map (fun kv => LDrop K V (fst kv) (snd kv)) l) t
  = fold_left (fun t kv => t_drop (snd kv) t (fst kv)) l t.
Proof using. revert t. induction l as [|kv r IH]; intros t; cbn [map fold_left]; [reflexivity|]. apply IH. Qed.

Lemma fold_map_store l t :
  fold_left replay1 (map (fun kv => LStore K V (fst kv) (snd kv)) l) t
  = fold_left (fun t kv => t_store (Val V (snd kv)) t (fst kv)) l t.
Proof using. revert t. induction l as [|kv r IH]; intros t; cbn [map fold_left]; [reflexivity|]. apply IH. Qed.

Lemma find_save l a d s k :
  NoDup (map fst a) -> NoDup (map fst d) -> NoDup (map fst s) ->
  t_find k (replay (log_save l a d s)) =
  match assoc k s with
  | Some v => Some (Val V v)
  | None =>
    let o := match assoc k a with Some v => f_add v (t_find k (replay l)) | None => t_find k (replay l) end in
    match assoc k d with Some v => f_drop v o | None => o end
  end.
Proof using keq_spec.
  intros Na Nd Ns. unfold IndexModel.replay, IndexModel.log_save.
  rewrite !fold_left_app, fold_map_add, fold_map_drop, fold_map_store.
  rewrite (find_fold (fun v => t_store (Val V v)) (fun v => f_store (Val V v)))
    by (try assumption; intros v; apply local_store).
  rewrite (find_fold t_drop f_drop) by (try assumption; intros v; apply local_drop).
  rewrite (find_fold t_add f_add) by (try assumption; intros v; apply local_add).
  reflexivity.
Qed.

Definition velts (o : option tval) : list V :=
  match o with Some (Val _ s) => s | _ => [] end.

Lemma htget_velts t k : htget t k = velts (t_find k t).
Proof using. unfold IndexModel.htget, IndexModel.t_get. destruct (t_find k t) as [[|s]|]; reflexivity. Qed.

Lemma velts_add v o x : In x (velts (f_add v o)) <-> In x (velts o) \/ In x v.
Proof using veq_spec.
  unfold f_add. destruct v as [|a r]; [cbn [In]; tauto|].
  destruct o as [[|s]|]; cbn [velts]; try (cbn [In]; tauto).
  apply in_union.
Qed.

Lemma velts_drop v o x : In x (velts (f_drop v o)) <-> In x (velts o) /\ ~ In x v.
Proof using veq_spec.
  unfold f_drop. destruct v as [|a r]; [cbn [In]; tauto|].
  destruct o as [[|s]|]; cbn [velts]; try (cbn [In]; tauto).
  rewrite <- in_minus. destruct (minus s (a :: r)); reflexivity.
Qed.

Definition olist (o : option (list V)) : list V := match o with Some s => s | None => [] end.

Lemma fetch_save l a d s k x :
  NoDup (map fst a) -> NoDup (map fst d) -> NoDup (map fst s) ->
  In x (log_fetch (log_save l a d s) k) <->
  match assoc k s with
  | Some v => In x v
  | None => (In x (log_fetch l k) \/ In x (olist (assoc k a))) /\ ~ In x (olist (assoc k d))
  end.
Proof using keq_spec veq_spec.
  intros Na Nd Ns. unfold IndexModel.log_fetch. rewrite !htget_velts, find_save by assumption.
  destruct (assoc k s) as [v|]; [reflexivity|]. cbn zeta.
  destruct (assoc k a) as [va|]; destruct (assoc k d) as [vd|]; cbn [olist];
    rewrite ?velts_drop, ?velts_add; cbn [In]; tauto.
Qed.

(** ** Reading *)

Notation edit_result := (edit_result K V keq veq).
Notation index_fetch := (index_fetch K V keq veq).
Notation index_get := (index_get K V keq veq).
Notation drops := (drops K V).
Notation adds := (adds K V).
Notation stores := (stores K V).
Notation cache := (cache K V).
Notation level := (level K V).
Notation noswap := (noswap K V).
Notation disk := (disk K V).

Lemma in_edit ix k r x :
  In x (edit_result ix k r) <->
  (In x r \/ In x (htget (adds ix) k)) /\ ~ In x (htget (drops ix) k).
Proof using veq_spec.
  unfold IndexModel.edit_result. destruct (drops ix) as [|p q] eqn:E.
  - rewrite in_union. unfold IndexModel.htget at 3, IndexModel.t_get. cbn. tauto.
  - destruct (htget (p :: q) k) as [|y z] eqn:F.
    + rewrite in_union. cbn [In]. tauto.
    + rewrite in_minus, in_union. reflexivity.
Qed.

(** What the tables and the file say about a key. *)
Definition based (ix : index) (k : K) : list V :=
  match t_get k (stores ix) with Some s => s | None => log_fetch (disk ix) k end.

Definition seen (ix : index) (k : K) (x : V) : Prop :=
  (In x (based ix k) \/ In x (htget (adds ix) k)) /\ ~ In x (htget (drops ix) k).

Lemma fetch_seen ix k x : In x (fst (index_fetch ix k)) <-> seen ix k x.
Proof using veq_spec. unfold IndexModel.index_fetch. cbn [fst]. apply in_edit. Qed.

(** ** Entries after an operation on several keys *)

Lemma get_each op f ks : local op f -> idem f -> forall t k,
  (In k ks -> htget (each op ks t) k = velts (f (t_find k t))) /\
  (~ In k ks -> htget (each op ks t) k = htget t k).
Proof using keq_spec.
  intros L I t k. destruct (find_each op f ks L I t k) as [H1 H2].
  split; intros H; rewrite !htget_velts; f_equal; auto.
Qed.

Lemma each_add v ks t k x :
  In x (htget (each (t_add v) ks t) k) <-> In x (htget t k) \/ (In k ks /\ In x v).
Proof using keq_spec veq_spec.
  destruct (get_each _ _ ks (local_add v) (idem_add v) t k) as [H1 H2].
  destruct (in_dec_k k ks) as [H|H].
  - rewrite (H1 H), velts_add, htget_velts. tauto.
  - rewrite (H2 H). tauto.
Qed.

Lemma each_drop v ks t k x :
  In x (htget (each (t_drop v) ks t) k) <-> In x (htget t k) /\ ~ (In k ks /\ In x v).
Proof using keq_spec veq_spec.
  destruct (get_each _ _ ks (local_drop v) (idem_drop v) t k) as [H1 H2].
  destruct (in_dec_k k ks) as [H|H].
  - rewrite (H1 H), velts_drop, htget_velts. tauto.
  - rewrite (H2 H). tauto.
Qed.

Lemma each_remove ks t k x :
  In x (htget (each t_remove ks t) k) <-> In x (htget t k) /\ ~ In k ks.
Proof using keq_spec.
  destruct (get_each _ _ ks local_remove idem_remove t k) as [H1 H2].
  destruct (in_dec_k k ks) as [H|H].
  - rewrite (H1 H). cbn. tauto.
  - rewrite (H2 H). tauto.
Qed.

Lemma tget_each op f ks : local op f -> idem f -> forall t k,
  (In k ks -> t_get k (each op ks t) = match f (t_find k t) with Some (Val _ s) => Some s | _ => None end) /\
  (~ In k ks -> t_get k (each op ks t) = t_get k t).
Proof using keq_spec.
  intros L I t k. destruct (find_each op f ks L I t k) as [H1 H2].
  unfold IndexModel.t_get. split; intros H; [rewrite (H1 H) | rewrite (H2 H)]; reflexivity.
Qed.

End P.

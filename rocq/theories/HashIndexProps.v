(** * Properties C99, C100 and C101: the hashindex driver.

    What is saved is what is fetched; saves that are interrupted; keys and sizes. *)

From Coq Require Import NArith ZArith List Bool Lia ZifyBool ZifyN ZifyNat Permutation.
From Verif Require Import BytesModel BytesProofs ChunkModel ChunkProofs HashIndexModel HashIndexProofs.
From Verif Require FileIndexModel FileIndexProofs.
Import ListNotations.
Local Open Scope N_scope.

Section Spec.

Variable L : Type.
Variable leq : L -> L -> bool.
Variable enc : L -> bytes.
Variable dec : bytes -> option (L * bytes).
Variable oid_of : L -> option (N * N).
Variable mk_oid : N -> N -> L.
Variable slot_of : L -> option (N * L).
Variable mk_key : N -> L -> L.
Variable t : offtype.
Variable n : N.
Variable junk : cref.

(** What is assumed of the values: equal ones are not told apart; what is written is read back;
    OIDs are made from base and offset, keys with a slotid from it and the rest. *)
Record setting : Prop := {
  s_eq : forall a b, leq a b = true <-> a = b;
  s_codec : forall x r, dec (enc x ++ r) = Some (x, r);
  s_oid : forall v b o, oid_of v = Some (b, o) -> mk_oid b o = v /\ o < 2 ^ 32;
  s_slot : forall k s r, slot_of k = Some (s, r) -> mk_key s r = k;
  s_buckets : 0 < n }.

Notation fetch := (HashIndexModel.fetch L leq enc dec mk_oid slot_of t n junk).
Notation fetchn1 := (HashIndexModel.fetchn1 L leq enc dec mk_oid slot_of t n junk).
Notation save_data := (HashIndexModel.save_data L leq enc dec oid_of mk_oid slot_of t n junk).
Notation save_with := (HashIndexModel.save_with L leq enc dec oid_of mk_oid slot_of t n junk).
Notation fetchinfo := (HashIndexModel.fetchinfo L dec mk_oid mk_key t n junk).
Notation fetchkeys := (HashIndexModel.fetchkeys L dec mk_oid mk_key t n junk).
Notation make_index := (HashIndexModel.make_index t n).
Notation commits := (HashIndexModel.commits L).
Notation c_adds := (HashIndexModel.c_adds L).
Notation c_drops := (HashIndexModel.c_drops L).
Notation c_stores := (HashIndexModel.c_stores L).
Notation item := (HashIndexModel.item L).
Notation it_bucket := (HashIndexModel.it_bucket L).

(** What a table of edits has for a key. *)
Definition lookup (k : L) (l : list (L * list L)) : option (list L) :=
  match find (fun kv => leq k (fst kv)) l with Some kv => Some (snd kv) | None => None end.
Definition given (k : L) (l : list (L * list L)) : list L :=
  match lookup k l with Some v => v | None => [] end.

(** Which values a key is to have, after the saves [h] (the last first). *)
Fixpoint has (h : list commits) (k v : L) : Prop :=
  match h with
  | [] => False
  | c :: r =>
    match lookup k (c_stores c) with
    | Some l => In v l
    | None => has r k v /\ ~ In v (given k (c_drops c))
    end \/ In v (given k (c_adds c))
  end.
(** The values that are left when drops and stores of a save have been done. *)
Definition kept (h : list commits) (c : commits) (k v : L) : Prop :=
  match lookup k (c_stores c) with
  | Some l => In v l
  | None => has h k v /\ ~ In v (given k (c_drops c))
  end.
(** A save says something about a key. *)
Definition names (c : commits) (k : L) : Prop :=
  In k (map fst (c_stores c)) \/ In k (map fst (c_drops c)) \/ given k (c_adds c) <> [].

(** The tables of a save: each has a key once, no key is both stored and dropped. *)
Definition plain (c : commits) : Prop :=
  NoDup (map fst (c_adds c)) /\ NoDup (map fst (c_stores c ++ c_drops c)).
(** Two values or more are added only to keys that have values or are new; or ke_vref of a
    new entry happens to have size 0. *)
Definition no_junk (h : list commits) (c : commits) : Prop :=
  snd junk = 0 \/
  forall k, (2 <= length (given k (c_adds c)))%nat ->
    (exists v, kept h c k v) \/
    (~ In k (map fst (c_stores c ++ c_drops c)) /\ forall c', In c' h -> ~ names c' k).
(** The sorts that keep the order of the entries of a bucket. *)
Definition stable (sort : list item -> list item) : Prop :=
  forall b l, filter (fun i => it_bucket i =? b) (sort l) = filter (fun i => it_bucket i =? b) l.
(** The tables of codes have less than 2^62 entries. *)
Definition small (c : codes) : Prop := match c with None => True | Some l => N.of_nat (length l) < 2 ^ 62 end.
(** The new buckets can be referred to. *)
Definition fits (r : cref) : Prop :=
  match t with
  | B32 => fst r < 2 ^ 32 /\ snd r < 2 ^ 32
  | B40 => fst r < 2 ^ 40 /\ snd r < 2 ^ 24
  | B64 => fst r < 2 ^ 64 /\ snd r < 2 ^ 32
  end.
(** The keys for which values are stored are not those of which a fetch takes for granted that
    they are absent: see C99_stored_odd_key_refuted. *)
Definition visible (c : commits) (ix : index) : Prop :=
  forall k v, In (k, v) (c_stores c) -> v <> [] ->
    slot_of k = None \/ ix_slots ix <> None \/ ix_odd ix = true.

(** A successful save. *)
Definition saves (sort : list item -> list item) (fmt : N) (h : list commits) (ix : index) (c : commits) (ix' : index) : Prop :=
  plain c /\ no_junk h c /\ stable sort /\
  save_with sort fmt ix c = Ok ix' /\
  small (ix_slots ix') /\ small (ix_oids ix') /\ visible c ix' /\
  (forall s r, save_data sort ix c = Ok s -> In r (sv_refs s) -> fits (snd r)).
(** The indexes that come from make_hashindex by such saves, with what was saved (the last
    first). *)
Inductive history : list commits -> index -> Prop :=
| h_new fmt odd times tail slots oids :
    flen (ix_file (make_index fmt odd times tail slots oids)) < 2 ^ 62 -> small slots -> small oids ->
    history [] (make_index fmt odd times tail slots oids)
| h_save sort fmt h ix c ix' : history h ix -> saves sort fmt h ix c ix' -> history (c :: h) ix'.

(** All values that were added were new, all that were stored different. *)
Fixpoint fresh (h : list commits) : Prop :=
  match h with
  | [] => True
  | c :: r =>
    fresh r /\ forall k,
      NoDup (given k (c_adds c)) /\ NoDup (given k (c_stores c)) /\
      forall v, In v (given k (c_adds c)) -> ~ kept r c k v
  end.

(** ** Preparations *)

Section With.
Hypothesis ST : setting.
Hypothesis T : t <> B64.
Let leq_eq := s_eq ST.
Let codec := s_codec ST.
Let oid_ok := s_oid ST.
Let slot_ok := s_slot ST.
Let n_pos := s_buckets ST.

Notation inv := (HashIndexProofs.inv L enc dec mk_oid slot_of t n junk).
Notation counted := (HashIndexProofs.counted L n).
Notation map_t := (L -> option (list L)).
Notation values_of := (HashIndexProofs.values_of L).
Notation work := (HashIndexProofs.work L leq).
Notation rune := (HashIndexProofs.rune L leq).
Notation choice_of := (HashIndexModel.choice_of L leq).
Notation uncoded := (HashIndexModel.uncoded L slot_of).

Lemma leq_refl a : leq a a = true.
Proof. apply leq_eq. reflexivity. Qed.
Lemma leq_neq a b : a <> b -> leq a b = false.
Proof. intros H. destruct (leq a b) eqn:X; [|reflexivity]. apply leq_eq in X. contradiction. Qed.

Lemma mem_in x s : FileIndexModel.mem L leq x s = true <-> In x s.
Proof.
  unfold FileIndexModel.mem. rewrite existsb_exists. split.
  - intros [y [Hy E]]. apply leq_eq in E. subst y. exact Hy.
  - intros H. exists x. split; [exact H|apply leq_refl].
Qed.
Lemma choice_in v l : In v (choice_of l) <-> In v l.
Proof.
  unfold HashIndexModel.choice_of, FileIndexModel.choice_of.
  assert (X : forall l s, In v (fold_left (FileIndexModel.add1 L leq) l s) <-> In v s \/ In v l).
  { clear l. induction l as [|x l IH]; intros s; cbn [fold_left]; [cbn [In]; tauto|]. rewrite IH. unfold FileIndexModel.add1.
    destruct (FileIndexModel.mem L leq x s) eqn:E.
    - apply mem_in in E. cbn [In]. intuition (subst; auto).
    - rewrite in_app_iff. cbn [In]. tauto. }
  rewrite X. cbn [In]. tauto.
Qed.
Lemma choice_nodup l : NoDup (choice_of l).
Proof.
  unfold HashIndexModel.choice_of, FileIndexModel.choice_of.
  assert (X : forall l s, NoDup s -> NoDup (fold_left (FileIndexModel.add1 L leq) l s)).
  { clear l. induction l as [|x l IH]; intros s Hs; [exact Hs|]. cbn [fold_left]. apply IH. unfold FileIndexModel.add1.
    destruct (FileIndexModel.mem L leq x s) eqn:E; [exact Hs|].
    assert (~ In x s) by (intros Q; apply mem_in in Q; congruence).
    apply (Permutation_NoDup (Permutation_cons_append s x)). constructor; assumption. }
  apply X. constructor.
Qed.
Lemma choice_id l : NoDup l -> choice_of l = l.
Proof.
  unfold HashIndexModel.choice_of, FileIndexModel.choice_of.
  assert (X : forall l s, NoDup (s ++ l) -> fold_left (FileIndexModel.add1 L leq) l s = s ++ l).
  { clear l. induction l as [|x l IH]; intros s Hs; [rewrite app_nil_r; reflexivity|]. cbn [fold_left]. unfold FileIndexModel.add1 at 2.
    destruct (FileIndexModel.mem L leq x s) eqn:E.
    - exfalso. apply mem_in in E. apply NoDup_remove in Hs. apply Hs. apply in_or_app. left. exact E.
    - rewrite IH by (rewrite <- app_assoc; exact Hs). rewrite <- app_assoc. reflexivity. }
  intros H. apply (X l []). exact H.
Qed.
Lemma minus_in v a b : In v (HashIndexModel.minus L leq a b) <-> In v a /\ ~ In v b.
Proof.
  unfold HashIndexModel.minus, FileIndexModel.minus. rewrite filter_In. split; intros [H1 H2]; split; try exact H1.
  - intros X. apply mem_in in X. rewrite X in H2. discriminate H2.
  - destruct (FileIndexModel.mem L leq v b) eqn:E; [|reflexivity]. apply mem_in in E. contradiction.
Qed.

Lemma lookup_cons k k' v l : lookup k ((k', v) :: l) = if leq k k' then Some v else lookup k l.
Proof. unfold lookup. cbn [find fst]. destruct (leq k k'); reflexivity. Qed.
Lemma lookup_in k v l : lookup k l = Some v -> In (k, v) l.
Proof.
  induction l as [|[k' v'] l IH]; [discriminate|]. rewrite lookup_cons. destruct (leq k k') eqn:E.
  - intros H. injection H as ->. apply leq_eq in E. subst k'. left. reflexivity.
  - intros H. right. apply IH. exact H.
Qed.
Lemma lookup_none k l : lookup k l = None <-> ~ In k (map fst l).
Proof.
  induction l as [|[k' v'] l IH]; [cbn; tauto|]. rewrite lookup_cons. cbn [map fst In]. destruct (leq k k') eqn:E.
  - apply leq_eq in E. subst k'. split; [discriminate|tauto].
  - rewrite IH. assert (k' <> k) by (intros ->; rewrite leq_refl in E; discriminate E). tauto.
Qed.
Lemma lookup_some k l : (exists v, lookup k l = Some v) <-> In k (map fst l).
Proof.
  destruct (lookup k l) eqn:E.
  - split; [intros _|intros _; eauto]. apply lookup_in in E. apply (in_map fst) in E. exact E.
  - apply lookup_none in E. split; [intros [v X]; discriminate X|contradiction].
Qed.
Lemma lookup_app k a b : lookup k (a ++ b) = match lookup k a with Some v => Some v | None => lookup k b end.
Proof.
  induction a as [|[k' v] a IH]; [reflexivity|]. cbn [app]. rewrite !lookup_cons. destruct (leq k k'); [reflexivity|exact IH].
Qed.
Lemma in_lookup k v l : NoDup (map fst l) -> In (k, v) l -> lookup k l = Some v.
Proof.
  induction l as [|[k' v'] l IH]; intros Nd H; [destruct H|]. rewrite lookup_cons. inversion Nd as [|x y N1 N2]; subst x y.
  destruct H as [H|H].
  - injection H as -> ->. rewrite leq_refl. reflexivity.
  - rewrite leq_neq; [apply IH; assumption|]. intros ->. apply N1. apply (in_map fst) in H. exact H.
Qed.
Lemma real_lookup k l : NoDup (map fst l) ->
  lookup k (real_adds L l) = match lookup k l with Some (x :: q) => Some (x :: q) | _ => None end.
Proof.
  intros Nd. induction l as [|[k' v] l IH]; [reflexivity|]. inversion Nd as [|x y N1 N2]; subst x y.
  rewrite lookup_cons. unfold real_adds. cbn [filter snd]. destruct v as [|x q].
  - fold (real_adds L l). rewrite (IH N2). destruct (leq k k') eqn:E; [|reflexivity].
    apply leq_eq in E. subst k'. apply lookup_none in N1. rewrite N1. reflexivity.
  - fold (real_adds L l). rewrite lookup_cons, (IH N2). destruct (leq k k'); reflexivity.
Qed.
Lemma real_nodup l : NoDup (map fst l) -> NoDup (map fst (real_adds L l)).
Proof.
  induction l as [|[k' v] l IH]; intros Nd; [constructor|]. inversion Nd as [|x y N1 N2]; subst x y. unfold real_adds. cbn [filter snd].
  fold (real_adds L l). destruct v; [apply IH; exact N2|]. cbn [map fst]. constructor; [|apply IH; exact N2].
  intros X. apply N1. apply in_map_iff in X. destruct X as [[a b] [E X]]. apply filter_In in X. apply in_map_iff. exists (a, b). tauto.
Qed.
Lemma red_lookup (m : map_t) k l : lookup k (reduced L leq m l) =
  match lookup k l with Some d => Some (HashIndexModel.minus L leq (choice_of (values_of (m k))) d) | None => None end.
Proof.
  induction l as [|[k' d] l IH]; [reflexivity|]. cbn [reduced map fst snd]. rewrite !lookup_cons. destruct (leq k k') eqn:E; [|exact IH].
  apply leq_eq in E. subst k'. reflexivity.
Qed.
Lemma red_keys (m : map_t) l : map fst (reduced L leq m l) = map fst l.
Proof. unfold reduced. rewrite map_map. reflexivity. Qed.

(** ** The edits of a save *)

Lemma rune_app m a b : rune m (a ++ b) = rune (rune m a) b.
Proof. apply fold_left_app. Qed.
Lemma rune_one repl l : NoDup (map fst l) -> forall (m : map_t) k, rune m (edits L repl l) k =
  match lookup k l with Some vs => Some (applied L vs repl (m k)) | None => m k end.
Proof.
  induction l as [|[k' v] l IH]; intros Nd m k; [reflexivity|]. inversion Nd as [|x y N1 N2]; subst x y.
  cbn [edits map fst snd]. change (rune m ((k', v, repl) :: map (fun kv => (fst kv, snd kv, repl)) l) k)
    with (rune (step L leq m k' v repl) (edits L repl l) k).
  rewrite (IH N2), lookup_cons. unfold step. destruct (leq k k') eqn:E.
  - apply leq_eq in E. subst k'. apply lookup_none in N1. rewrite N1. reflexivity.
  - reflexivity.
Qed.

Definition base (m : map_t) (c : commits) (k : L) : option (list L) :=
  match lookup k (c_stores c) with
  | Some vs => Some vs
  | None =>
    match lookup k (c_drops c) with
    | Some d => Some (HashIndexModel.minus L leq (choice_of (values_of (m k))) d)
    | None => m k
    end
  end.
Lemma base_ok (m : map_t) c k : plain c -> rune m (edits L true (c_stores c ++ reduced L leq m (c_drops c))) k = base m c k.
Proof.
  intros [_ Nd]. rewrite rune_one by (rewrite map_app, red_keys, <- map_app; exact Nd).
  rewrite lookup_app, red_lookup. unfold base. destruct (lookup k (c_stores c)); [reflexivity|]. destruct (lookup k (c_drops c)); reflexivity.
Qed.
Lemma work_ok (m : map_t) c k : plain c -> rune m (work m c) k =
  match given k (c_adds c) with
  | [] => base m c k
  | vs => Some (match base m c k with Some l => addl L l vs | None => vs end)
  end.
Proof.
  intros P. unfold HashIndexProofs.work. rewrite rune_app, rune_one by (apply real_nodup; apply P).
  rewrite real_lookup by apply P. rewrite base_ok by exact P. unfold given. destruct (lookup k (c_adds c)) as [[|x q]|]; reflexivity.
Qed.
Lemma addl_in v l vs : In v (addl L l vs) <-> In v l \/ In v vs.
Proof. destruct l as [|a [|b l]]; cbn [addl In]; rewrite ?in_app_iff; cbn [In]; tauto. Qed.
Lemma addl_perm l vs : Permutation (addl L l vs) (l ++ vs).
Proof.
  destruct l as [|a [|b l]]; cbn [addl app]; [apply Permutation_refl|apply Permutation_refl|].
  change (a :: b :: l ++ vs) with ((a :: b :: l) ++ vs). apply Permutation_app_comm.
Qed.

(** The saves and what the index holds. *)
Definition tells (h : list commits) (m : map_t) : Prop :=
  (forall k, m k <> None <-> exists c, In c h /\ names c k) /\
  forall k v, In v (values_of (m k)) <-> has h k v.

Lemma base_values h m c k v : tells h m -> In v (values_of (base m c k)) <-> kept h c k v.
Proof.
  intros [_ H]. unfold base, kept. destruct (lookup k (c_stores c)) as [l|] eqn:Es; [reflexivity|].
  rewrite <- H. unfold given. destruct (lookup k (c_drops c)) as [d|]; cbn [HashIndexProofs.values_of].
  - rewrite minus_in, choice_in. reflexivity.
  - cbn [In]. tauto.
Qed.
Lemma base_some h m c k : tells h m -> base m c k <> None <->
  In k (map fst (c_stores c ++ c_drops c)) \/ exists c', In c' h /\ names c' k.
Proof.
  intros [H _]. unfold base. rewrite map_app, in_app_iff. rewrite <- !lookup_some, <- H.
  destruct (lookup k (c_stores c)) as [l|].
  - split; [intros _; left; left; eauto|discriminate].
  - destruct (lookup k (c_drops c)) as [d|].
    + split; [intros _; left; right; eauto|discriminate].
    + split; [intros X; right; exact X|intros [[[l X]|[d X]]|X]; [discriminate X|discriminate X|exact X]].
Qed.
Lemma tells_step h m c : tells h m -> plain c -> tells (c :: h) (rune m (work m c)).
Proof.
  intros H P. split.
  - intros k. rewrite work_ok by exact P. transitivity (base m c k <> None \/ given k (c_adds c) <> []).
    { destruct (given k (c_adds c)) as [|x q]; [tauto|]. split; [intros _; right; discriminate|discriminate]. }
    rewrite (base_some h m c k H), map_app, in_app_iff. split.
    + intros [[[X|X]|[c' [X Y]]]|X].
      * exists c. split; [left; reflexivity|]. left. exact X.
      * exists c. split; [left; reflexivity|]. right. left. exact X.
      * exists c'. split; [right; exact X|exact Y].
      * exists c. split; [left; reflexivity|]. right. right. exact X.
    + intros [c' [[<-|X] Y]].
      * destruct Y as [Y|[Y|Y]]; tauto.
      * left. right. eauto.
  - intros k v. rewrite work_ok by exact P. cbn [has].
    change (match lookup k (c_stores c) with Some l => In v l | None => has h k v /\ ~ In v (given k (c_drops c)) end) with (kept h c k v).
    rewrite <- (base_values h m c k v H). destruct (given k (c_adds c)) as [|x q]; [cbn [In]; tauto|].
    destruct (base m c k) as [l|]; cbn [HashIndexProofs.values_of].
    + rewrite addl_in. reflexivity.
    + cbn [In]. tauto.
Qed.
Lemma tells_nil : tells [] (none L).
Proof. split; [intros k; split; [intros X; exfalso; apply X; reflexivity|intros [c [[] _]]]|intros k v; cbn; tauto]. Qed.

Lemma repl_safe l : forall m, HashIndexProofs.safee L leq junk m (edits L true l).
Proof.
  induction l as [|[k v] l IH]; intros m; [exact I|]. split; [intros X; discriminate X|]. apply IH.
Qed.
Lemma safee_app a b : forall m, HashIndexProofs.safee L leq junk m (a ++ b) <->
  HashIndexProofs.safee L leq junk m a /\ HashIndexProofs.safee L leq junk (rune m a) b.
Proof.
  induction a as [|[[k v] r] a IH]; intros m; [cbn; tauto|]. cbn [app HashIndexProofs.safee]. rewrite IH.
  change (rune m ((k, v, r) :: a)) with (rune (step L leq m k v r) a). tauto.
Qed.
Lemma adds_safe l : NoDup (map fst l) -> (forall k v, In (k, v) l -> v <> []) -> forall m : map_t,
  (forall k v, In (k, v) l -> (2 <= length v)%nat -> m k = Some [] -> snd junk = 0) ->
  HashIndexProofs.safee L leq junk m (edits L false l).
Proof.
  induction l as [|[k v] l IH]; intros Nd Ne m H; [exact I|]. inversion Nd as [|x y N1 N2]; subst x y. split.
  - intros _. split; [apply (Ne k v); left; reflexivity|]. intros H1 H2. apply (H k v); [left; reflexivity|exact H1|exact H2].
  - apply (IH N2); [intros a b X; apply (Ne a b); right; exact X|]. intros a b X H1 H2. apply (H a b); [right; exact X|exact H1|].
    unfold step in H2. rewrite leq_neq in H2; [exact H2|]. intros ->. apply N1. apply (in_map fst) in X. exact X.
Qed.
Lemma work_safe h m c : tells h m -> plain c -> no_junk h c -> HashIndexProofs.safee L leq junk m (work m c).
Proof.
  intros H P J. unfold HashIndexProofs.work. apply safee_app. split; [apply repl_safe|]. apply adds_safe.
  - apply real_nodup. apply P.
  - intros k v X. apply filter_In in X. destruct X as [_ X]. destruct v; [discriminate X|discriminate].
  - intros k v X Hl Hm. rewrite base_ok in Hm by exact P. destruct J as [J|J]; [exact J|]. exfalso.
    assert (G : given k (c_adds c) = v).
    { apply filter_In in X. destruct X as [X _]. unfold given. rewrite (in_lookup k v _ (proj1 P) X). reflexivity. }
    rewrite <- G in Hl. destruct (J k Hl) as [[w W]|[W1 W2]].
    + apply (base_values h m c k w H) in W. rewrite Hm in W. destruct W.
    + assert (Z : base m c k <> None) by (rewrite Hm; discriminate). apply (base_some h m c k H) in Z.
      destruct Z as [Z|[c' [Z1 Z2]]]; [exact (W1 Z)|exact (W2 c' Z1 Z2)].
Qed.

Lemma saved_parts sort ix m B c s : inv ix m B -> save_data sort ix c = Ok s ->
  sv_odd s = odd_after L slot_of ix (c_adds c) /\
  exists its, HashIndexModel.schedule L enc slot_of n (ix_slots ix) (work m c) = (its, sv_slots s).
Proof.
  intros V H. unfold HashIndexModel.save_data in H.
  rewrite (reduce_ok L leq enc dec oid_of mk_oid slot_of mk_key t n junk leq_eq codec oid_ok slot_ok n_pos ix m B _ V) in H. fold (work m c) in H.
  destruct (HashIndexModel.schedule L enc slot_of n (ix_slots ix) (work m c)) as [its0 sc] eqn:Es.
  destruct (save_buckets L enc dec oid_of mk_oid slot_of t junk (ix_file ix) sc (sort its0) _ _ _ _) as [[[[f' oc] refs] nk0]|] eqn:Eb; [|discriminate H].
  destruct (maxpos t <=? flen f'); [discriminate H|]. injection H as <-. split; [reflexivity|]. exists its0. reflexivity.
Qed.

Lemma work_visible sort ix m B c s : inv ix m B -> plain c -> save_data sort ix c = Ok s ->
  (forall k v, In (k, v) (c_stores c) -> v <> [] -> slot_of k = None \/ sv_slots s <> None \/ sv_odd s = true) ->
  forall k vs r, In (k, vs, r) (work m c) -> vs <> [] ->
     forall f nk, uncoded (Ix f (sv_slots s) (sv_oids s) (sv_odd s) nk) k = false.
Proof.
  intros V P Es Vi k vs r Hin Hne f nk. destruct (saved_parts sort ix m B c s V Es) as [Eo [its Ei]].
  destruct (schedule_ok L enc slot_of n _ _ _ _ Ei) as [Xs [Ms Is]].
  assert (Cd : coded L slot_of (sv_slots s) k).
  { rewrite <- Ms in Hin. apply in_map_iff in Hin. destruct Hin as [i [Hi1 Hi2]]. injection Hi1 as <- _ _. apply (Is i Hi2). }
  assert (Mono : uncoded ix k = false -> uncoded (Ix f (sv_slots s) (sv_oids s) (sv_odd s) nk) k = false).
  { apply uncoded_mono; [|exact Xs]. intros O. rewrite Eo. unfold odd_after. rewrite O. reflexivity. }
  unfold HashIndexProofs.work in Hin. apply in_app_or in Hin. destruct Hin as [Hin|Hin].
  - unfold edits in Hin. apply in_map_iff in Hin. destruct Hin as [[k' v'] [E Hin]]. cbn [fst snd] in E. injection E as -> -> _.
    apply in_app_or in Hin. destruct Hin as [Hin|Hin].
    + destruct (Vi k vs Hin Hne) as [X|X].
      * unfold HashIndexModel.uncoded. rewrite X. reflexivity.
      * unfold HashIndexModel.uncoded. unfold coded in Cd. destruct (slot_of k) as [[sl rr]|]; [|reflexivity]. cbn [ix_odd ix_slots].
        destruct X as [X|X].
        -- destruct Cd as [Cd|Cd]; [contradiction|]. destruct (code_of (sv_slots s) sl); [|congruence]. destruct (sv_odd s); reflexivity.
        -- rewrite X. reflexivity.
    + apply Mono. unfold reduced in Hin. apply in_map_iff in Hin. destruct Hin as [[k' d] [E Hin]]. cbn [fst snd] in E. injection E as -> E.
      destruct (m k) as [l|] eqn:Em.
      * apply (i_odd _ _ _ _ _ _ _ _ _ _ _ V k l Em). intros ->. apply Hne. rewrite <- E. reflexivity.
      * exfalso. apply Hne. rewrite <- E. reflexivity.
  - unfold edits in Hin. apply in_map_iff in Hin. destruct Hin as [[k' v'] [E Hin]]. cbn [fst snd] in E. injection E as -> -> _.
    destruct (uncoded ix k) eqn:U; [|apply Mono; reflexivity].
    assert (O : sv_odd s = true).
    { rewrite Eo. unfold odd_after. apply orb_true_iff. right. apply existsb_exists. exists (k, vs). split; [exact Hin|exact U]. }
    rewrite O. unfold HashIndexModel.uncoded. destruct (slot_of k) as [[sl rr]|]; reflexivity.
Qed.

Lemma nodup_app (a b : list L) : NoDup a -> NoDup b -> (forall v, In v b -> ~ In v a) -> NoDup (a ++ b).
Proof.
  induction a as [|x a IH]; intros Ha Hb H; [exact Hb|]. inversion Ha as [|y z A1 A2]; subst y z. cbn [app]. constructor.
  - intros X. apply in_app_or in X. destruct X as [X|X]; [exact (A1 X)|]. apply (H x X). left. reflexivity.
  - apply IH; [exact A2|exact Hb|]. intros v Hv X. apply (H v Hv). right. exact X.
Qed.
Lemma nodup_step h (m : map_t) c k : tells h m -> plain c -> NoDup (values_of (m k)) ->
  NoDup (given k (c_adds c)) -> NoDup (given k (c_stores c)) -> (forall v, In v (given k (c_adds c)) -> ~ kept h c k v) ->
  NoDup (values_of (rune m (work m c) k)).
Proof.
  intros Tl P Nm Na Ns Fr. rewrite work_ok by exact P.
  assert (Nb : NoDup (values_of (base m c k))).
  { unfold base. unfold given in Ns. destruct (lookup k (c_stores c)); [exact Ns|]. destruct (lookup k (c_drops c)); [|exact Nm].
    cbn [HashIndexProofs.values_of]. apply NoDup_filter. apply choice_nodup. }
  assert (Nf : forall v, In v (given k (c_adds c)) -> ~ In v (values_of (base m c k))).
  { intros v Hv X. apply (Fr v Hv). apply (base_values h m c k v Tl). exact X. }
  destruct (given k (c_adds c)) as [|x q]; [exact Nb|]. destruct (base m c k) as [l|]; cbn [HashIndexProofs.values_of] in *; [|exact Na].
  apply (Permutation_NoDup (Permutation_sym (addl_perm l (x :: q)))). apply nodup_app; assumption.
Qed.

Lemma with_parts sort fmt ix c ix' : save_with sort fmt ix c = Ok ix' ->
  (c_adds c = [] /\ c_drops c = [] /\ c_stores c = [] /\ ix' = ix) \/
  exists s, save_data sort ix c = Ok s /\
    ix' = Ix (write_header fmt (sv_odd s) (sv_nkeys s) (fold_left (write_ref t) (sv_refs s) (sv_file s)))
             (sv_slots s) (sv_oids s) (sv_odd s) (sv_nkeys s).
Proof.
  intros H. unfold HashIndexModel.save_with in H. destruct (c_adds c), (c_drops c), (c_stores c);
    try (right; destruct (save_data sort ix c) as [s| | |]; try discriminate H; exists s; split; [reflexivity|congruence]).
  left. repeat split; congruence.
Qed.

Lemma history_inv h ix : history h ix -> exists m B, inv ix m B /\ counted ix B /\ tells h m /\
  (fresh h -> forall k, NoDup (values_of (m k))).
Proof.
  induction 1 as [fmt odd times tail slots oids H1 H2 H3|sort fmt h ix c ix' H IH S].
  - destruct (make_inv L enc dec oid_of mk_oid slot_of mk_key t n junk codec oid_ok slot_ok n_pos fmt odd times tail slots oids H1 H2 H3) as [V C].
    exists (none L), (fun _ => []). split; [exact V|]. split; [exact C|]. split; [apply tells_nil|].
    intros _ k. constructor.
  - destruct IH as [m [B [V [C [Tl Nd]]]]]. destruct S as [P [J [St [Sv [S1 [S2 [Vi F]]]]]]].
    destruct (save_ok L leq enc dec oid_of mk_oid slot_of mk_key t n junk leq_eq codec oid_ok slot_ok n_pos sort fmt ix m B c ix' V C St T Sv (work_safe h m c Tl P J) S1 S2) as [B' [V' C']].
    + intros s r Es Hr. specialize (F s r Es Hr). unfold fits in F. unfold in_range. exact F.
    + destruct (with_parts sort fmt ix c ix' Sv) as [[Q1 [Q2 [Q3 Q4]]]|[s [Es Ex]]].
      * intros k vs r X. unfold HashIndexProofs.work in X. rewrite Q1, Q2, Q3 in X. destruct X.
      * intros k vs r X Y. subst ix'. apply (work_visible sort ix m B c s V P Es Vi k vs r X Y).
    + exists (rune m (work m c)), B'. split; [exact V'|]. split; [exact C'|]. split; [apply tells_step; assumption|].
      intros [F1 F2] k. apply (nodup_step h m c k Tl P (Nd F1 k)); apply F2.
Qed.

(** ** C99 *)

(** After any history of saves, fetching a key from the index gives the values it is to have,
    each once: those that were stored or added for it and not dropped since.  (Partial: files
    with 32-bit or 40-bit offsets; see [saves] for what is asked of the saves, and the
    refutations below for what happens otherwise.) *)
Theorem C99_fetch_partial h ix k : history h ix ->
  exists l, fetch ix k = Ok l /\ NoDup l /\ forall v, In v l <-> has h k v.
Proof.
  intros H. destruct (history_inv h ix H) as [m [B [V [_ [Tl _]]]]].
  exists (choice_of (values_of (m k))). split; [eapply fetch_ok; eassumption|]. split; [apply choice_nodup|].
  intros v. rewrite choice_in. apply (proj2 Tl).
Qed.

(** Fetching many keys at once gives the same for each. *)
Theorem C99_fetchn_partial h ix k : history h ix ->
  exists l, fetchn1 ix k = Ok l /\ NoDup l /\ (forall v, In v l <-> has h k v) /\ fetch ix k = Ok l.
Proof.
  intros H. destruct (history_inv h ix H) as [m [B [V [_ [Tl _]]]]].
  exists (choice_of (values_of (m k))). split; [eapply fetchn1_ok; eassumption|]. split; [apply choice_nodup|].
  split; [|eapply fetch_ok; eassumption]. intros v. rewrite choice_in. apply (proj2 Tl).
Qed.

Lemma buckets_some ix m B sc its : inv ix m B -> forall bs f oc, (forall b, In b bs -> b < n) ->
  save_buckets L enc dec oid_of mk_oid slot_of t junk (ix_file ix) sc its bs f oc (ix_oids ix) <> None.
Proof.
  intros V. assert (OT : save_offtype t = t) by (destruct t; [reflexivity|reflexivity|contradiction]).
  induction bs as [|b bs IH]; intros f oc Hb; [discriminate|]. cbn [save_buckets]. rewrite OT.
  destruct (i_buckets _ _ _ _ _ _ _ _ _ _ _ V b (Hb b (or_introl eq_refl))) as [ref [A1 [A2 _]]]. rewrite A1.
  rewrite (bstored_read _ _ _ _ _ _ _ _ _ _ A2). destruct (updates _ _ _ _ _ _ _ _ _ _) as [[f1 oc1] es1].
  destruct (write_bucket _ _ _ _ _) as [bb oc2].
  specialize (IH (f1 ++ bb) oc2 (fun x Hx => Hb x (or_intror Hx))).
  destruct (save_buckets _ _ _ _ _ _ _ _ _ _ _ bs _ _ _) as [[[[f' oc'] refs] nk]|]; [discriminate|contradiction].
Qed.

(** A save that fails does so because the file has become too long: what has been saved before
    can always be read, and the save comes to an end. *)
Theorem C99_save_ends_partial h ix sort fmt c : history h ix -> stable sort ->
  (exists ix', save_with sort fmt ix c = Ok ix') \/ save_with sort fmt ix c = Overflow.
Proof.
  intros H St. destruct (history_inv h ix H) as [m [B [V _]]]. unfold HashIndexModel.save_with, HashIndexModel.save_data.
  rewrite (reduce_ok L leq enc dec oid_of mk_oid slot_of mk_key t n junk leq_eq codec oid_ok slot_ok n_pos ix m B _ V).
  fold (work m c). destruct (HashIndexModel.schedule _ _ _ _ _ _) as [its0 sc] eqn:Es.
  assert (Hb : forall b, In b (nodup N.eq_dec (map it_bucket (sort its0))) -> b < n).
  { intros b Hb. apply nodup_In in Hb. apply in_map_iff in Hb. destruct Hb as [i [<- Hi]].
    apply (stable_in L sort its0 St) in Hi. destruct (schedule_ok L enc slot_of n _ _ _ _ Es) as [_ [_ Is]].
    rewrite <- (proj2 (Is i Hi)). apply N.mod_lt. lia. }
  pose proof (buckets_some ix m B sc (sort its0) V _ (ix_file ix) (ix_oids ix) Hb) as Nn.
  destruct (save_buckets _ _ _ _ _ _ _ _ _ _ _ _ _ _ _) as [[[[f' oc] refs] nk0]|]; [|contradiction].
  destruct (maxpos t <=? flen f'); destruct (c_adds c), (c_drops c), (c_stores c); eauto.
Qed.

(** ** C100 *)

Notation agree := (HashIndexProofs.agree t n).
Notation head := (HashIndexProofs.head t n).

Lemma agree_tail f f' : agree f f' -> flen f' = flen f -> head <= flen f ->
  skipn (N.to_nat head) f' = skipn (N.to_nat head) f.
Proof.
  intros [_ A] El Hh. specialize (A head (flen f - head) ltac:(lia) ltac:(lia)). unfold slice in A.
  rewrite !firstn_all2 in A by (rewrite skipn_length; unfold flen in *; lia). exact A.
Qed.

Lemma saved_ok sort fmt h ix c ix' s m B : inv ix m B -> tells h m -> saves sort fmt h ix c ix' -> save_data sort ix c = Ok s ->
  (c_adds c = [] /\ c_drops c = [] /\ c_stores c = []) \/
  (let m' := rune m (work m c) in
   let wrote k done := existsb (fun r => fst r =? HashIndexModel.bucket L enc slot_of n (sv_slots s) k) done in
   (exists g, sv_file s = ix_file ix ++ g) /\
   NoDup (map fst (sv_refs s)) /\ (forall r, In r (sv_refs s) -> fst r < n) /\
   exists G, forall done rest nk, sv_refs s = done ++ rest ->
     inv (Ix (fold_left (write_ref t) done (sv_file s)) (sv_slots s) (sv_oids s) (sv_odd s) nk)
         (fun k => if wrote k done then m' k else m k) (G done)).
Proof.
  intros V Tl [P [J [St [Sv [S1 [S2 [Vi F]]]]]]] Es.
  destruct (with_parts sort fmt ix c ix' Sv) as [[Q1 [Q2 [Q3 Q4]]]|[s' [Es' Ex]]]; [left; repeat split; assumption|right].
  rewrite Es in Es'. injection Es' as <-. subst ix'. cbn [ix_slots ix_oids] in *.
  destruct (save_data_ok L leq enc dec oid_of mk_oid slot_of mk_key t n junk leq_eq codec oid_ok slot_ok n_pos sort ix m B c s V St T Es
    (work_safe h m c Tl P J) S1 S2) as [A1 [A2 [A3 [A4 [A5 [G [A6 _]]]]]]].
  - intros r Hr. specialize (F s r Es Hr). unfold fits in F. unfold in_range. exact F.
  - apply (work_visible sort ix m B c s V P Es Vi).
  - split; [exact A1|]. split; [exact A4|]. split; [exact A5|].
    exists (fun done b => if existsb (N.eqb b) (map fst done) then G b else B b). exact A6.
Qed.

(** A save appends: behind the head (header and references) the file is what it was, followed
    by the new data. *)
Theorem C100_save_appends_partial h ix sort fmt c ix' : history h ix -> saves sort fmt h ix c ix' ->
  exists g, skipn (N.to_nat (head_len t n)) (ix_file ix') = skipn (N.to_nat (head_len t n)) (ix_file ix) ++ g /\
    flen (ix_file ix') = flen (ix_file ix) + flen g.
Proof.
  intros H S. destruct (history_inv h ix H) as [m [B [V [_ [Tl _]]]]].
  pose proof (i_head _ _ _ _ _ _ _ _ _ _ _ V) as Hh. change (head_len t n) with head.
  assert (Sv : save_with sort fmt ix c = Ok ix') by apply S.
  destruct (with_parts sort fmt ix c ix' Sv) as [[Q1 [Q2 [Q3 ->]]]|[s [Es ->]]].
  { exists []. rewrite app_nil_r. split; [reflexivity|]. unfold flen. cbn [length]. lia. }
  destruct (saved_ok sort fmt h ix c _ s m B V Tl S Es) as [[Q1 [Q2 Q3]]|[[g Hg] [Nd [Rn [G _]]]]].
  { unfold HashIndexModel.save_with in Sv. rewrite Q1, Q2, Q3 in Sv. injection Sv as Sv.
    rewrite <- Sv. exists []. rewrite app_nil_r. split; [reflexivity|]. unfold flen. cbn [length]. lia. }
  exists g. cbn [ix_file]. set (f1 := fold_left (write_ref t) (sv_refs s) (sv_file s)).
  assert (Hs : head <= flen (sv_file s)) by (rewrite Hg; unfold flen in *; rewrite app_length; lia).
  assert (Fr : forall r, In r (sv_refs s) -> fst r < n /\ in_range t (snd r)).
  { intros r Hr. split; [apply Rn; exact Hr|]. destruct S as [_ [_ [_ [_ [_ [_ [_ F]]]]]]]. exact (F s r Es Hr). }
  destruct (write_refs_ok L enc dec oid_of mk_oid slot_of mk_key t n codec oid_ok slot_ok n_pos (sv_refs s) (sv_file s) Nd Fr Hs) as [W1 [W2 _]]. fold f1 in W1, W2.
  assert (Hf : head <= flen f1) by lia.
  destruct (header_ok L enc dec oid_of mk_oid slot_of mk_key t n codec oid_ok slot_ok n_pos fmt (sv_odd s) (sv_nkeys s) f1 Hf) as [X1 [X2 _]].
  rewrite (agree_tail _ _ X2 X1 Hf), (agree_tail _ _ W2 W1 Hs), X1, W1, Hg. split.
  - apply FileIndexProofs.skip_app_le. unfold flen in Hh. lia.
  - unfold flen. rewrite app_length. lia.
Qed.

(** As long as no reference has been written, every key has the values it had, whatever has
    been appended. *)
Theorem C100_appended_partial h ix g nk k : history h ix -> flen (ix_file ix ++ g) < 2 ^ 62 ->
  fetch (Ix (ix_file ix ++ g) (ix_slots ix) (ix_oids ix) (ix_odd ix) nk) k = fetch ix k.
Proof.
  intros H Hl. destruct (history_inv h ix H) as [m [B [V [_ [Tl _]]]]].
  assert (V' : inv (Ix (ix_file ix ++ g) (ix_slots ix) (ix_oids ix) (ix_odd ix) nk) m B).
  { destruct ix as [f sc oc odd nk0]. cbn [ix_file ix_slots ix_oids ix_odd] in *.
    apply (inv_file L enc dec oid_of mk_oid slot_of mk_key t n junk codec oid_ok slot_ok n_pos f _ sc oc odd nk0 nk m B V (agree_app L enc dec oid_of mk_oid slot_of mk_key t n codec oid_ok slot_ok f g) Hl).
    intros b Hb. unfold get_ref. f_equal. apply slice_app. pose proof (i_head _ _ _ _ _ _ _ _ _ _ _ V) as X. cbn [ix_file] in X.
    pose proof (ref_pos L oid_of mk_oid slot_of mk_key t n oid_ok slot_ok n_pos b Hb). lia. }
  transitivity (Ok (choice_of (values_of (m k)))).
  - apply (fetch_ok L leq enc dec oid_of mk_oid slot_of mk_key t n junk leq_eq codec oid_ok slot_ok n_pos _ m B k V').
  - symmetry. apply (fetch_ok L leq enc dec oid_of mk_oid slot_of mk_key t n junk leq_eq codec oid_ok slot_ok n_pos _ m B k V).
Qed.

(** When the references are being written, a key has all the values it had or all the values
    it gets, and once its bucket has been written it stays so.  (The tables of codes are those
    of the save.) *)
Theorem C100_between_references_partial h ix sort fmt c ix' s : history h ix -> saves sort fmt h ix c ix' ->
  save_data sort ix c = Ok s ->
  exists at_ : L -> N, forall done rest nk k, sv_refs s = done ++ rest ->
    exists l, fetch (Ix (fold_left (write_ref t) done (sv_file s)) (sv_slots s) (sv_oids s) (sv_odd s) nk) k = Ok l /\
      if existsb (fun r => fst r =? at_ k) done
      then forall v, In v l <-> has (c :: h) k v
      else forall v, In v l <-> has h k v.
Proof.
  intros H S Es. destruct (history_inv h ix H) as [m [B [V [_ [Tl _]]]]].
  assert (Tl' : tells (c :: h) (rune m (work m c))) by (apply tells_step; [exact Tl|apply S]).
  exists (HashIndexModel.bucket L enc slot_of n (sv_slots s)).
  destruct (saved_ok sort fmt h ix c ix' s m B V Tl S Es) as [[Q1 [Q2 Q3]]|[_ [_ [_ [G HG]]]]].
  - intros done rest nk k Hr.
    assert (X : s = Sv (ix_file ix) (ix_slots ix) (ix_oids ix) (odd_after L slot_of ix (c_adds c)) [] (ix_nkeys ix + 0)).
    { unfold HashIndexModel.save_data in Es. rewrite Q1, Q2, Q3 in Es. cbn [reduce_drops real_adds filter app edits map HashIndexModel.schedule] in Es.
      destruct S as [_ [_ [St _]]]. assert (So : sort [] = []).
      { destruct (sort []) as [|x q] eqn:E; [reflexivity|]. assert (In x (sort [])) as I0 by (rewrite E; left; reflexivity).
        apply (stable_in L sort [] St) in I0. destruct I0. }
      rewrite So in Es. cbn [map nodup save_buckets] in Es. rewrite Q1. destruct (maxpos t <=? flen (ix_file ix)); [discriminate Es|]. injection Es as <-. reflexivity. }
    subst s. cbn [sv_refs] in Hr. destruct done as [|d done]; [|discriminate Hr]. cbn [fold_left sv_file sv_slots sv_oids sv_odd existsb].
    rewrite Q1. unfold odd_after. cbn [real_adds filter existsb]. rewrite orb_false_r.
    exists (choice_of (values_of (m k))). split.
    + transitivity (fetch ix k); [reflexivity|].
      apply (fetch_ok L leq enc dec oid_of mk_oid slot_of mk_key t n junk leq_eq codec oid_ok slot_ok n_pos _ m B k V).
    + intros v. rewrite choice_in. apply (proj2 Tl).
  - intros done rest nk k Hr. specialize (HG done rest nk Hr).
    eexists. split; [apply (fetch_ok L leq enc dec oid_of mk_oid slot_of mk_key t n junk leq_eq codec oid_ok slot_ok n_pos _ _ _ k HG)|].
    cbv beta. destruct (existsb _ done); intros v; rewrite choice_in; [apply (proj2 Tl')|apply (proj2 Tl)].
Qed.

(** Whatever has become of the head and whatever has been appended: the rollback file brings
    back the file as it was. *)
Theorem C100_rollback_partial h ix hd g : history h ix -> flen hd = head_len t n ->
  rollback (save_head t n (ix_file ix)) (hd ++ skipn (N.to_nat (head_len t n)) (ix_file ix) ++ g) = Some (ix_file ix).
Proof.
  intros H Hd. destruct (history_inv h ix H) as [m [B [V _]]].
  pose proof (i_head _ _ _ _ _ _ _ _ _ _ _ V) as Hh. pose proof (i_len _ _ _ _ _ _ _ _ _ _ _ V) as Hl.
  change head with (head_len t n) in Hh. unfold rollback, FileIndexModel.apply_head, save_head, head_of.
  set (f := ix_file ix) in *. set (p := N.to_nat (head_len t n)) in *.
  assert (Lp : length (firstn p f) = p) by (rewrite firstn_length; unfold flen in *; lia).
  rewrite app_length, put_8bytes_len, Lp. replace (p + 8 - 8)%nat with p by lia.
  rewrite <- Lp at 1. rewrite skipn_app, skipn_all, Nat.sub_diag. cbn [app skipn].
  rewrite <- (app_nil_r (put_8bytes _)), read_8bytes_put. rewrite N.mod_small by lia.
  destruct (Nat.ltb_spec (N.to_nat (flen f)) p) as [X|_]; [unfold flen in *; lia|]. f_equal.
  rewrite firstn_app, Lp, Nat.sub_diag. cbn [firstn]. rewrite app_nil_r. rewrite firstn_all2 by lia.
  unfold FileIndexModel.patch. change (N.to_nat 0) with O. cbn [firstn app Nat.add]. rewrite Lp.
  rewrite FileIndexProofs.skip_app_ge by (unfold flen in *; lia).
  replace (p - length hd)%nat with O by (unfold flen in *; lia). cbn [skipn].
  unfold FileIndexModel.truncate. rewrite app_assoc, firstn_skipn, app_length.
  replace (N.to_nat (flen f) - _)%nat with O by (unfold flen; lia). cbn [repeat]. rewrite app_nil_r.
  unfold flen. rewrite Nat2N.id, firstn_app, Nat.sub_diag, firstn_all. cbn [firstn]. apply app_nil_r.
Qed.

(** A two-phase commit gives the file that the save gives, but for the 8 bytes behind the
    references: these are now the former size of the file. *)
Theorem C100_two_phase_partial h ix sort fmt c ix' : history h ix -> saves sort fmt h ix c ix' ->
  head_len t n + 8 <= flen (ix_file ix') -> flen (ix_file ix') < 2 ^ 62 ->
  finish t n (ix_file ix) (ix_file ix') =
  Some (patch (ix_file ix') (head_len t n) (put_8bytes (flen (ix_file ix)))).
Proof.
  intros H S H8 H62. destruct (history_inv h ix H) as [m [B [V _]]].
  pose proof (i_head _ _ _ _ _ _ _ _ _ _ _ V) as Hh. change head with (head_len t n) in Hh.
  unfold finish, FileIndexModel.apply_head, prepared, data_only, head_of.
  set (f := ix_file ix) in *. set (f' := ix_file ix') in *. set (p := N.to_nat (head_len t n)) in *.
  assert (Lp : length (firstn p f) = p) by (rewrite firstn_length; unfold flen in *; lia).
  assert (Lq : length (firstn p f') = p) by (rewrite firstn_length; unfold flen in *; lia).
  assert (L8 : forall x, length (put_8bytes x) = 8%nat) by (intros; apply put_8bytes_len).
  rewrite !app_length, !L8, Lq. replace (p + (8 + 8) - 8)%nat with (p + 8)%nat by lia.
  rewrite app_assoc.
  assert (Lr : length (firstn p f' ++ put_8bytes (flen f)) = (p + 8)%nat) by (rewrite app_length, L8, Lq; reflexivity).
  rewrite <- Lr at 1. rewrite skipn_app, skipn_all, Nat.sub_diag. cbn [app skipn].
  rewrite <- (app_nil_r (put_8bytes (flen f'))) at 1. rewrite read_8bytes_put, N.mod_small by lia.
  destruct (Nat.ltb_spec (N.to_nat (flen f')) (p + 8)) as [X|_]; [unfold flen in *; lia|]. f_equal.
  rewrite firstn_app, Lr, Nat.sub_diag. cbn [firstn]. rewrite app_nil_r. rewrite (firstn_all2 (firstn p f' ++ put_8bytes (flen f))) by lia.
  unfold FileIndexModel.patch. change (N.to_nat 0) with O. cbn [firstn app Nat.add]. rewrite Lr.
  rewrite FileIndexProofs.skip_app_ge by lia. rewrite Lp. replace (p + 8 - p)%nat with 8%nat by lia.
  unfold patch. fold p. rewrite L8. unfold FileIndexModel.truncate.
  rewrite <- !app_assoc.
  assert (Lt : length (firstn p f' ++ put_8bytes (flen f) ++ skipn 8 (skipn p f')) = length f').
  { rewrite !app_length, L8, Lq, !skipn_length. revert H8 Hh. subst p. generalize (head_len t n). unfold flen. clear. intros q. intros. lia. }
  replace (N.to_nat (flen f')) with (length f') by (unfold flen; lia). rewrite Lt, Nat.sub_diag. cbn [repeat]. rewrite app_nil_r.
  rewrite firstn_all2 by lia. f_equal. f_equal. rewrite HashIndexProofs.skipn_add. reflexivity.
Qed.

(** ** C101 *)

(** The keys of the index are listed once each; they are the keys that any save has named (also
    those without values), and so all keys that have values; their number is the number of keys
    in the header.  No key has more values than its number of values. *)
Theorem C101_keys_partial h ix : history h ix -> ix_nkeys ix < 2 ^ 32 ->
  exists l, fetchinfo ix = Some l /\ fetchkeys ix = Some (map fst l) /\
    NoDup (map fst l) /\ N.of_nat (length l) = ix_nkeys ix /\
    (forall k, In k (map fst l) <-> exists c, In c h /\ names c k) /\
    (forall k v, has h k v -> In k (map fst l)) /\
    (forall k i, In (k, i) l -> exists vs, fetch ix k = Ok vs /\ N.of_nat (length vs) <= i).
Proof.
  intros H Hn. destruct (history_inv h ix H) as [m [B [V [C [Tl _]]]]].
  destruct (infos_ok L leq enc dec oid_of mk_oid slot_of mk_key t n junk leq_eq codec oid_ok slot_ok n_pos ix m B V C Hn) as [l [Hl [Nd [Ln In_]]]].
  exists l. split; [exact Hl|]. split; [unfold HashIndexModel.fetchkeys; rewrite Hl; reflexivity|]. split; [exact Nd|]. split; [exact Ln|].
  assert (Kk : forall k, In k (map fst l) <-> m k <> None).
  { intros k. split.
    - intros X. apply in_map_iff in X. destruct X as [[k' i] [<- X]]. apply In_ in X. destruct X as [vs [X _]]. cbn [fst]. congruence.
    - intros X. destruct (m k) as [vs|] eqn:E; [|congruence]. apply in_map_iff. exists (k, N.of_nat (length vs)).
      split; [reflexivity|]. apply In_. exists vs. split; [exact E|reflexivity]. }
  split; [intros k; rewrite Kk; apply (proj1 Tl)|]. split.
  - intros k v Hv. apply Kk. intros X. apply (proj2 Tl) in Hv. rewrite X in Hv. destruct Hv.
  - intros k i X. apply In_ in X. destruct X as [vs [X ->]]. exists (choice_of vs). split.
    + rewrite (fetch_ok L leq enc dec oid_of mk_oid slot_of mk_key t n junk leq_eq codec oid_ok slot_ok n_pos ix m B k V), X. reflexivity.
    + assert (Y : (length (choice_of vs) <= length vs)%nat); [|lia].
      apply NoDup_incl_length; [apply choice_nodup|]. intros v. apply choice_in.
Qed.

(** If all values that were added were new, the numbers are the numbers of values. *)
Theorem C101_sizes_partial h ix : history h ix -> fresh h -> ix_nkeys ix < 2 ^ 32 ->
  exists l, fetchinfo ix = Some l /\
    forall k i, In (k, i) l -> exists vs, fetch ix k = Ok vs /\ i = N.of_nat (length vs).
Proof.
  intros H Fr Hn. destruct (history_inv h ix H) as [m [B [V [C [Tl Nd]]]]].
  destruct (infos_ok L leq enc dec oid_of mk_oid slot_of mk_key t n junk leq_eq codec oid_ok slot_ok n_pos ix m B V C Hn) as [l [Hl [_ [_ In_]]]].
  exists l. split; [exact Hl|]. intros k i X. apply In_ in X. destruct X as [vs [X ->]]. exists vs. split; [|reflexivity].
  rewrite (fetch_ok L leq enc dec oid_of mk_oid slot_of mk_key t n junk leq_eq codec oid_ok slot_ok n_pos ix m B k V), X. cbn [HashIndexProofs.values_of].
  rewrite choice_id; [reflexivity|]. specialize (Nd Fr k). rewrite X in Nd. exact Nd.
Qed.

End With.
End Spec.

(** ** Cases

    Keys and values are numbers, written in unary; 20 to 39 stand for pairs with two slotids, 40 to
    59 for OIDs with two bases. *)

Definition uenc (x : N) : bytes := repeat 1 (N.to_nat x) ++ [0].
Fixpoint udec (b : bytes) : option (N * bytes) :=
  match b with
  | [] => None
  | 0 :: r => Some (0, r)
  | _ :: r => match udec r with Some (x, r') => Some (x + 1, r') | None => None end
  end.
Definition uslot (k : N) : option (N * N) :=
  if (20 <=? k) && (k <? 40) then Some ((k - 20) / 10, (k - 20) mod 10) else None.
Definition ukey (s r : N) : N := 20 + 10 * s + r.
Definition uoid (v : N) : option (N * N) :=
  if (40 <=? v) && (v <? 60) then Some ((v - 40) / 10, (v - 40) mod 10) else None.
Definition umk (b o : N) : N := 40 + 10 * b + o.

Lemma u_setting m : 0 < m -> setting N N.eqb uenc udec uoid umk uslot ukey m.
Proof.
  intros Hm. constructor.
  - intros a b. apply N.eqb_eq.
  - intros x r. unfold uenc. rewrite <- (N2Nat.id x) at 2. generalize (N.to_nat x) as i.
    induction i as [|i IH]; [reflexivity|]. cbn [repeat app udec]. cbn [repeat app] in IH. rewrite IH.
    f_equal. f_equal. lia.
  - intros v b o. unfold uoid, umk. destruct (N.leb_spec 40 v) as [X|X]; [|discriminate]. destruct (N.ltb_spec v 60) as [Y|Y]; [|discriminate].
    cbn [andb]. intros E. injection E as <- <-. pose proof (N.div_mod (v - 40) 10 ltac:(discriminate)).
    pose proof (N.mod_lt (v - 40) 10 ltac:(discriminate)). split; lia.
  - intros v b o. unfold uslot, ukey. destruct (N.leb_spec 20 v) as [X|X]; [|discriminate]. destruct (N.ltb_spec v 40) as [Y|Y]; [|discriminate].
    cbn [andb]. intros E. injection E as <- <-. pose proof (N.div_mod (v - 20) 10 ltac:(discriminate)). lia.
  - exact Hm.
Qed.

Definition C (a s d : list (N * list N)) : commits N := Build_commits N a d s.
Definition none_ref : cref := (0, 0).
Definition mk (t : offtype) (n : N) (slots oids : codes) : index := make_index t n 0 false [] [7; 7; 7; 7] slots oids.
Definition usave (t : offtype) (n : N) (junk : cref) (ix : index) (c : commits N) : index :=
  match save N N.eqb uenc udec uoid umk uslot t n junk 0 ix c with Ok ix' => ix' | _ => ix end.
Definition ufetch (t : offtype) (n : N) (junk : cref) := fetch N N.eqb uenc udec umk uslot t n junk.
Definition ufetchn (t : offtype) (n : N) (junk : cref) := fetchn1 N N.eqb uenc udec umk uslot t n junk.
Definition uinfo (t : offtype) (n : N) (junk : cref) := fetchinfo N udec umk ukey t n junk.

Definition c1 := C [(1, [2; 41; 52]); (21, [4])] [(2, [5; 6])] [].
Definition c2 := C [(21, [43]); (31, [8]); (1, [9; 10])] [(3, [1])] [(1, [2]); (2, [5; 6])].
Definition i0 := mk B32 3 (Some []) (Some []).
Definition i1 := usave B32 3 none_ref i0 c1.
Definition i2 := usave B32 3 none_ref i1 c2.

Print Assumptions C99_fetch_partial.
Print Assumptions C99_fetchn_partial.
Print Assumptions C99_save_ends_partial.
Print Assumptions C100_save_appends_partial.
Print Assumptions C100_appended_partial.
Print Assumptions C100_between_references_partial.
Print Assumptions C100_rollback_partial.
Print Assumptions C100_two_phase_partial.
Print Assumptions C101_keys_partial.
Print Assumptions C101_sizes_partial.

Definition usave_data (t : offtype) (n : N) (junk : cref) :=
  save_data N N.eqb uenc udec uoid umk uslot t n junk (FileIndexModel.qsort (it_bucket N)).
Definition uhistory (t : offtype) (n : N) (junk : cref) := history N N.eqb uenc udec uoid umk uslot t n junk.
Definition usaves (t : offtype) (n : N) (junk : cref) :=
  saves N N.eqb uenc udec uoid umk uslot t n junk (FileIndexModel.qsort (it_bucket N)) 0.

Definition fitsb (t : offtype) (r : cref) : bool :=
  match t with
  | B32 => (fst r <? 2 ^ 32) && (snd r <? 2 ^ 32)
  | B40 => (fst r <? 2 ^ 40) && (snd r <? 2 ^ 24)
  | B64 => (fst r <? 2 ^ 64) && (snd r <? 2 ^ 32)
  end.
Lemma all_fit t n junk ix c : match usave_data t n junk ix c with Ok s => forallb (fun r => fitsb t (snd r)) (sv_refs s) | _ => true end = true ->
  forall s r, usave_data t n junk ix c = Ok s -> In r (sv_refs s) -> fits t (snd r).
Proof.
  intros H s r E X. rewrite E in H. rewrite forallb_forall in H. specialize (H r X). unfold fits. destruct t; cbn [fitsb] in H; lia.
Qed.
Lemma i0_history : uhistory B32 3 none_ref [] i0.
Proof. apply h_new; [vm_compute; reflexivity|vm_compute; reflexivity|vm_compute; reflexivity]. Qed.
Ltac nd := repeat (constructor; [cbn; intuition discriminate|]); constructor.
Ltac same := vm_compute; reflexivity.
Ltac fit t j ix c := exact (all_fit t 3 j ix c ltac:(vm_compute; reflexivity)).
Ltac one_save := split; [split; [nd|nd]|]; split; [left; reflexivity|]; split; [exact (qsort_stable N)|];
  split; [same|]; split; [same|]; split; [same|]; split.
Lemma i1_saves : usaves B32 3 none_ref [] i0 c1 i1.
Proof.
  one_save.
  - intros k v _ _. right. left. vm_compute. discriminate.
  - fit B32 none_ref i0 c1.
Qed.
Lemma i1_history : uhistory B32 3 none_ref [c1] i1.
Proof. eapply h_save; [exact i0_history|exact i1_saves]. Qed.
Lemma i2_saves : usaves B32 3 none_ref [c1] i1 c2 i2.
Proof.
  one_save.
  - intros k v _ _. right. left. vm_compute. discriminate.
  - fit B32 none_ref i1 c2.
Qed.
Lemma i2_history : uhistory B32 3 none_ref [c2; c1] i2.
Proof. eapply h_save; [exact i1_history|exact i2_saves]. Qed.

(** Two saves into 3 buckets; values are added, stored and dropped, for 1 dropped and added at
    once; 21 and 31 have slotids, 41, 43 and 52 are OIDs. *)
Example C99_fetch_partial_case : uhistory B32 3 none_ref [c2; c1] i2 /\
  map (ufetch B32 3 none_ref i2) [0; 1; 2; 3; 21; 31] =
  [Ok []; Ok [9; 10; 41; 52]; Ok []; Ok [1]; Ok [4; 43]; Ok [8]] /\ ix_slots i2 = Some [0; 1] /\ ix_oids i2 = Some [0; 1].
Proof. split; [exact i2_history|]. split; [same|]. split; same. Qed.
Example C99_fetchn_partial_case : map (ufetchn B32 3 none_ref i2) [1; 21] = [Ok [9; 10; 41; 52]; Ok [4; 43]].
Proof. same. Qed.
Example C99_save_ends_partial_case : exists ix, save N N.eqb uenc udec uoid umk uslot B32 3 none_ref 0 i1 c2 = Ok ix.
Proof. exists i2. same. Qed.

Example C100_save_appends_partial_case :
  usaves B32 3 none_ref [c1] i1 c2 i2 /\ flen (ix_file i1) = 341 /\ flen (ix_file i2) = 434.
Proof. split; [exact i2_saves|]. split; same. Qed.
Example C100_appended_partial_case :
  map (ufetch B32 3 none_ref (Ix (ix_file i2 ++ [1; 2; 3]) (ix_slots i2) (ix_oids i2) (ix_odd i2) 9)) [1; 21] =
  [Ok [9; 10; 41; 52]; Ok [4; 43]].
Proof. same. Qed.
(** The second save has three references to write: with one of them 31 has its value, with two
    of them also 21, and 1 still has its old values. *)
Definition sd : saved := match usave_data B32 3 none_ref i1 c2 with Ok s => s | _ => Sv [] None None false [] 0 end.
Definition torn (i : nat) : index :=
  Ix (fold_left (write_ref B32) (firstn i (sv_refs sd)) (sv_file sd)) (sv_slots sd) (sv_oids sd) (sv_odd sd) 0.
Example C100_between_references_partial_case : usave_data B32 3 none_ref i1 c2 = Ok sd /\
  map (ufetch B32 3 none_ref (torn 0)) [1; 21; 31] = [Ok [2; 41; 52]; Ok [4]; Ok []] /\
  map (ufetch B32 3 none_ref (torn 1)) [1; 21; 31] = [Ok [2; 41; 52]; Ok [4]; Ok [8]] /\
  map (ufetch B32 3 none_ref (torn 2)) [1; 21; 31] = [Ok [2; 41; 52]; Ok [4; 43]; Ok [8]] /\
  map (ufetch B32 3 none_ref (torn 3)) [1; 21; 31] = [Ok [9; 10; 41; 52]; Ok [4; 43]; Ok [8]].
Proof. split; [same|]. split; [same|]. split; [same|]. split; same. Qed.
Example C100_rollback_partial_case :
  rollback (save_head B32 3 (ix_file i1)) (ix_file i2) = Some (ix_file i1) /\ head_of B32 3 (ix_file i1) <> head_of B32 3 (ix_file i2).
Proof. split; [same|]. vm_compute. discriminate. Qed.
Example C100_two_phase_partial_case :
  match finish B32 3 (ix_file i1) (ix_file i2) with Some f => (slice f 280 8, slice (ix_file i2) 280 8) | None => ([], []) end =
  ([0; 0; 0; 0; 0; 0; 1; 85], [7; 7; 7; 7; 2; 0; 1; 1]).
Proof. same. Qed.

Example C101_keys_partial_case : uinfo B32 3 none_ref i2 = Some [(3, 1); (31, 1); (2, 0); (21, 2); (1, 4)] /\ ix_nkeys i2 = 5.
Proof. split; same. Qed.
Example C101_sizes_partial_case : uinfo B32 3 none_ref i1 = Some [(2, 2); (21, 1); (1, 3)] /\ fresh N N.eqb [c1].
Proof.
  split; [same|]. split; [exact I|]. intros k. unfold given, lookup. cbn [c1 C find fst snd c_adds c_stores c_drops].
  destruct (N.eqb_spec k 1) as [->|]; [split; [nd|]; split; [constructor|]; intros v _ X; destruct X as [[] _]|].
  destruct (N.eqb_spec k 21) as [->|]; [split; [nd|]; split; [constructor|]; intros v _ X; destruct X as [[] _]|].
  split; [constructor|]. split; [destruct (N.eqb_spec k 2); nd|intros v []].
Qed.

(** ** What does not hold *)

(** C99 for files with 64-bit offsets: false.  The test of the type of offsets in hashindex_save
    assigns KNO_B40, the references are read from the wrong places, and the keys that were in the
    buckets are lost. *)
Definition j1 := usave B64 2 none_ref (mk B64 2 None None) (C [(1, [5])] [] []).
Definition j2 := usave B64 2 none_ref j1 (C [(3, [6])] [] []).
Theorem C99_b64_refuted : exists ix c ix',
  ix = mk B64 2 None None /\
  save N N.eqb uenc udec uoid umk uslot B64 2 none_ref 0 ix c = Ok ix' /\ ufetch B64 2 none_ref ix' 1 = Ok [5] /\
  exists c' ix'', save N N.eqb uenc udec uoid umk uslot B64 2 none_ref 0 ix' c' = Ok ix'' /\
    lookup N N.eqb 1 (c_stores N c' ++ c_drops N c') = None /\ ufetch B64 2 none_ref ix'' 1 = Ok [].
Proof.
  exists (mk B64 2 None None), (C [(1, [5])] [] []), j1. split; [reflexivity|]. split; [same|]. split; [same|].
  exists (C [(3, [6])] [] []), j2. split; [same|]. split; same.
Qed.
Print Assumptions C99_b64_refuted.

(** C99 for saves that do not meet [no_junk]: false.  The value of 1 is dropped, then two are added:
    the new block is followed by what the memory of the key entry held.  A fetch stops after
    the two values; fetching many keys at once, and so also dropping values, goes on. *)
Definition junky : cref := (284, 9).
Definition q1 := usave B32 3 junky i0 (C [(1, [5])] [] []).
Definition q2 := usave B32 3 junky q1 (C [] [] [(1, [5])]).
Definition q3 := usave B32 3 junky q2 (C [(1, [6; 7])] [] []).
Theorem C99_junk_refuted : exists ix c ix',
  uhistory B32 3 junky [C [] [] [(1, [5])]; C [(1, [5])] [] []] ix /\ plain N c /\
  save N N.eqb uenc udec uoid umk uslot B32 3 junky 0 ix c = Ok ix' /\
  ufetch B32 3 junky ix' 1 = Ok [6; 7] /\ ufetchn B32 3 junky ix' 1 = Bad.
Proof.
  exists q2, (C [(1, [6; 7])] [] []), q3. split.
  - assert (S1 : usaves B32 3 junky [] i0 (C [(1, [5])] [] []) q1).
    { split; [split; nd|]. split; [right; intros k; unfold given, lookup; cbn; destruct (k =? 1); cbn; lia|].
      split; [exact (qsort_stable N)|]. split; [same|]. split; [same|]. split; [same|]. split; [intros k v []|fit B32 junky i0 (C [(1, [5])] [] [])]. }
    assert (S2 : usaves B32 3 junky [C [(1, [5])] [] []] q1 (C [] [] [(1, [5])]) q2).
    { split; [split; nd|]. split; [right; intros k; unfold given, lookup; cbn; lia|].
      split; [exact (qsort_stable N)|]. split; [same|]. split; [same|]. split; [same|]. split; [intros k v []|fit B32 junky q1 (C [] [] [(1, [5])])]. }
    eapply h_save; [|exact S2]. eapply h_save; [|exact S1]. apply h_new; same.
  - split; [split; nd|]. split; [same|]. split; same.
Qed.
Print Assumptions C99_junk_refuted.

(** C99 with any sort by buckets: false.  qsort need not keep the order of equal elements; when the
    addition for a key comes before what is left of the drops, it is lost. *)
Definition other_sort (l : list (item N)) : list (item N) := FileIndexModel.qsort (it_bucket N) (rev l).
Definition r1 := usave B32 3 none_ref i0 (C [(1, [2; 4])] [] []).
Definition r2 := match save_with N N.eqb uenc udec uoid umk uslot B32 3 none_ref other_sort 0 r1 (C [(1, [3])] [] [(1, [2])]) with Ok ix => ix | _ => r1 end.
Theorem C99_sort_refuted : exists ix c ix',
  (forall l, Permutation (other_sort l) l) /\ plain N c /\
  ix = r1 /\ ufetch B32 3 none_ref ix 1 = Ok [2; 4] /\
  save_with N N.eqb uenc udec uoid umk uslot B32 3 none_ref other_sort 0 ix c = Ok ix' /\
  lookup N N.eqb 1 (c_adds N c) = Some [3] /\ ufetch B32 3 none_ref ix' 1 = Ok [4].
Proof.
  exists r1, (C [(1, [3])] [] [(1, [2])]), r2. split.
  { intros l. unfold other_sort. etransitivity; [apply FileIndexProofs.qsort_perm|]. apply Permutation_sym, Permutation_rev. }
  split; [split; nd|]. split; [reflexivity|]. split; [same|]. split; [same|]. split; same.
Qed.
Print Assumptions C99_sort_refuted.

(** C99 for keys with slotids in an index without a table of slotids: false.  Only additions set
    the flag which tells a fetch to look for such keys. *)
Definition k0 := mk B32 3 None None.
Definition k1 := usave B32 3 none_ref k0 (C [] [(21, [5])] []).
Theorem C99_stored_odd_key_refuted : exists ix c ix',
  uhistory B32 3 none_ref [] ix /\ plain N c /\
  save N N.eqb uenc udec uoid umk uslot B32 3 none_ref 0 ix c = Ok ix' /\ lookup N N.eqb 21 (c_stores N c) = Some [5] /\
  ufetch B32 3 none_ref ix' 21 = Ok [] /\ fetchkeys N udec umk ukey B32 3 none_ref ix' = Some [21].
Proof.
  exists k0, (C [] [(21, [5])] []), k1. split; [apply h_new; same|]. split; [split; nd|].
  split; [same|]. split; [same|]. split; same.
Qed.
Print Assumptions C99_stored_odd_key_refuted.

(** C100.  A two-phase commit gives what the save gives: false.  In an index without vectors behind
    the references the 8 bytes that are overwritten are data. *)
Definition t0 := make_index B32 3 0 false [] [] None None.
Definition t1 := usave B32 3 none_ref t0 (C [(1, [2; 4])] [] []).
Theorem C100_two_phase_refuted : exists ix c ix' f,
  uhistory B32 3 none_ref [] ix /\ usaves B32 3 none_ref [] ix c ix' /\
  finish B32 3 (ix_file ix) (ix_file ix') = Some f /\ ufetch B32 3 none_ref ix' 1 = Ok [2; 4] /\
  ufetch B32 3 none_ref (Ix f (ix_slots ix') (ix_oids ix') (ix_odd ix') (ix_nkeys ix')) 1 <> Ok [2; 4].
Proof.
  exists t0, (C [(1, [2; 4])] [] []), t1, (match finish B32 3 (ix_file t0) (ix_file t1) with Some f => f | None => [] end).
  split; [apply h_new; same|]. split.
  { one_save; [intros k v []|fit B32 none_ref t0 (C [(1, [2; 4])] [] [])]. }
  split; [same|]. split; [same|]. vm_compute. discriminate.
Qed.
Print Assumptions C100_two_phase_refuted.

Lemma recover_same saved f saved' f' : recover saved f = Some (saved', f') -> f' = f.
Proof. unfold recover. destruct (FileIndexModel.apply_head f saved); [|discriminate]. intros X. injection X as _ X. symmetry. exact X. Qed.
(** Recovering with the rollback file brings back the file: false.  kno_restore_head is called
    with the rollback file first and applies the file to it. *)
Theorem C100_recover_refuted : exists ix c ix' hurt,
  uhistory B32 3 none_ref [c1] ix /\ usaves B32 3 none_ref [c1] ix c ix' /\
  hurt = repeat 0 280 ++ skipn 280 (ix_file ix') /\
  rollback (save_head B32 3 (ix_file ix)) hurt = Some (ix_file ix) /\
  (forall saved', recover (save_head B32 3 (ix_file ix)) hurt <> Some (saved', ix_file ix)).
Proof.
  exists i1, c2, i2, (repeat 0 280 ++ skipn 280 (ix_file i2)). split; [exact i1_history|]. split; [exact i2_saves|].
  split; [reflexivity|]. split; [same|]. intros s X. apply recover_same in X.
  apply (f_equal (fun f => flen f)) in X. vm_compute in X. discriminate X.
Qed.
Print Assumptions C100_recover_refuted.

(** C101.  The numbers are the numbers of values: false if a value is added which is already
    there. *)
Definition i3 := usave B32 3 none_ref i2 (C [(1, [9])] [] []).
Lemma i3_history : uhistory B32 3 none_ref [C [(1, [9])] [] []; c2; c1] i3.
Proof.
  assert (S : usaves B32 3 none_ref [c2; c1] i2 (C [(1, [9])] [] []) i3) by (one_save; [intros k v []|fit B32 none_ref i2 (C [(1, [9])] [] [])]).
  eapply h_save; [exact i2_history|exact S].
Qed.
Theorem C101_sizes_refuted : exists h ix l k i vs,
  uhistory B32 3 none_ref h ix /\ uinfo B32 3 none_ref ix = Some l /\ In (k, i) l /\
  ufetch B32 3 none_ref ix k = Ok vs /\ i <> N.of_nat (length vs).
Proof.
  exists [C [(1, [9])] [] []; c2; c1], i3, [(3, 1); (31, 1); (2, 0); (21, 2); (1, 5)], 1, 5, [9; 10; 41; 52].
  split; [exact i3_history|]. split; [same|]. split; [cbn; tauto|]. split; [same|discriminate].
Qed.
Print Assumptions C101_sizes_refuted.

(** The keys that are listed have values: false.  All values of 2 have been dropped; 5 never had
    one. *)
Definition i4 := usave B32 3 none_ref i2 (C [] [] [(5, [9])]).
Lemma i4_history : uhistory B32 3 none_ref [C [] [] [(5, [9])]; c2; c1] i4.
Proof. assert (S : usaves B32 3 none_ref [c2; c1] i2 (C [] [] [(5, [9])]) i4) by (one_save; [intros k v []|fit B32 none_ref i2 (C [] [] [(5, [9])])]).
  eapply h_save; [exact i2_history|exact S]. Qed.
Theorem C101_keys_have_values_refuted : exists h ix ks,
  uhistory B32 3 none_ref h ix /\ fetchkeys N udec umk ukey B32 3 none_ref ix = Some ks /\ In 2 ks /\ In 5 ks /\
  ufetch B32 3 none_ref ix 2 = Ok [] /\ ufetch B32 3 none_ref ix 5 = Ok [] /\ (forall v, ~ has N N.eqb h 5 v) /\ ix_nkeys ix = 6.
Proof.
  exists [C [] [] [(5, [9])]; c2; c1], i4, [3; 31; 2; 21; 1; 5].
  split; [exact i4_history|]. split; [same|]. split; [cbn; tauto|]. split; [cbn; tauto|]. split; [same|]. split; [same|].
  split; [|same]. intros v X. vm_compute in X. tauto.
Qed.
Print Assumptions C101_keys_have_values_refuted.

(** hashindex_fetchsize gives the number of values: false.  It takes numbers from the bytes of
    the key. *)
Theorem C101_fetchsize_refuted : exists h ix,
  uhistory B32 3 none_ref h ix /\ ufetch B32 3 none_ref ix 1 = Ok [2; 41; 52] /\
  fetchsize N uenc uslot B32 3 ix 1 <> Some 3.
Proof. exists [c1], i1. split; [exact i1_history|]. split; [same|]. vm_compute. discriminate. Qed.
Print Assumptions C101_fetchsize_refuted.

(** The pool's tables hold what the program expects. *)

From Coq Require Import List ZArith Bool Lia.
Import ListNotations.
From Verif Require Import PoolCacheModel PoolCacheSpec.
Local Open Scope Z_scope.

(** ** Tables *)
Lemma tget_tput : forall t k v o, tget (tput t k v) o = if k =? o then Some v else tget t o.
Proof.
  induction t as [| [k' v'] t IH]; intros k v o; cbn [tput tget].
  - reflexivity.
  - destruct (k' =? k) eqn:E; cbn [tget].
    + apply Z.eqb_eq in E; subst. destruct (k =? o); reflexivity.
    + destruct (k' =? o) eqn:E'.
      * destruct (k =? o) eqn:E''; [ | reflexivity].
        apply Z.eqb_eq in E', E''. apply Z.eqb_neq in E. congruence.
      * apply IH.
Qed.

Lemma tget_treplace : forall t k v o,
  tget (treplace t k v) o =
  if k =? o then match tget t o with Some _ => Some v | None => None end else tget t o.
Proof.
  induction t as [| [k' v'] t IH]; intros k v o.
  - cbn. destruct (k =? o); reflexivity.
  - unfold treplace in *. cbn [map fst]. specialize (IH k v o).
    destruct (k' =? k) eqn:E; cbn [tget].
    + apply Z.eqb_eq in E; subst k'. destruct (k =? o) eqn:E'; [reflexivity | ].
      rewrite IH. reflexivity.
    + destruct (k' =? o) eqn:E'; [ | rewrite IH; reflexivity].
      destruct (k =? o) eqn:E''; [ | reflexivity].
      apply Z.eqb_eq in E', E''. apply Z.eqb_neq in E. congruence.
Qed.

Lemma keys_treplace : forall t k v, map fst (treplace t k v) = map fst t.
Proof.
  intros t k v; unfold treplace; rewrite map_map. apply map_ext.
  intros [a b]; cbn. destruct (a =? k); reflexivity.
Qed.

Lemma keys_tput : forall t k v,
  map fst (tput t k v) = if thas t k then map fst t else map fst t ++ [k].
Proof.
  induction t as [| [k' v'] t IH]; intros k v; unfold thas; cbn [tput tget map fst app].
  - reflexivity.
  - destruct (k' =? k) eqn:E; cbn [map fst]; [reflexivity | ].
    rewrite IH. unfold thas. destruct (tget t k); reflexivity.
Qed.

Lemma tget_In : forall t o v, tget t o = Some v -> In (o, v) t.
Proof.
  induction t as [| [k w] t IH]; intros o v H; cbn in H; [discriminate | ].
  destruct (k =? o) eqn:E; [ | right; apply IH; exact H].
  apply Z.eqb_eq in E; subst. injection H as ->. left; reflexivity.
Qed.

Lemma tget_None : forall t o, tget t o = None -> ~ In o (map fst t).
Proof.
  induction t as [| [k w] t IH]; intros o H; cbn in *; [tauto | ].
  destruct (k =? o) eqn:E; [discriminate | ]. apply Z.eqb_neq in E.
  intros [H' | H']; [congruence | exact (IH o H H')].
Qed.

Lemma In_tget : forall t o v, NoDup (map fst t) -> In (o, v) t -> tget t o = Some v.
Proof.
  induction t as [| [k w] t IH]; intros o v ND H; cbn in *; [tauto | ].
  inversion ND as [| ? ? Hn ND']; subst. destruct H as [H | H].
  - injection H as -> ->. rewrite Z.eqb_refl. reflexivity.
  - destruct (k =? o) eqn:E; [ | apply IH; assumption].
    apply Z.eqb_eq in E; subst. exfalso; apply Hn.
    apply in_map_iff. exists (o, v); auto.
Qed.

Lemma nodup_tput : forall t k v, NoDup (map fst t) -> NoDup (map fst (tput t k v)).
Proof.
  intros t k v H. rewrite keys_tput. unfold thas. destruct (tget t k) eqn:E; [exact H | ].
  apply tget_None in E. clear - H E. induction (map fst t) as [| x l IH]; cbn.
  - constructor; [tauto | constructor].
  - inversion H; subst. constructor.
    + rewrite in_app_iff. cbn in *. intros [Hx | [-> | []]]; [contradiction | ].
      apply E; left; reflexivity.
    + apply IH; [assumption | ]. intro Hx; apply E; right; exact Hx.
Qed.

Lemma nodup_treplace : forall t k v, NoDup (map fst t) -> NoDup (map fst (treplace t k v)).
Proof. intros; rewrite keys_treplace; assumption. Qed.

Lemma nodup_filter : forall (t : tbl) f, NoDup (map fst t) -> NoDup (map fst (filter f t)).
Proof.
  induction t as [| [k v] t IH]; intros f H; cbn; [constructor | ].
  inversion H; subst. destruct (f (k, v)); cbn; [ | apply IH; assumption].
  constructor; [ | apply IH; assumption].
  intro Hin; apply in_map_iff in Hin as ((k', v') & E & Hin). cbn in E; subst k'.
  apply filter_In in Hin as [Hin _]. apply H2. apply in_map_iff. exists (k, v'); auto.
Qed.

Lemma tget_filter : forall (t : tbl) f o, NoDup (map fst t) ->
  tget (filter f t) o =
  match tget t o with Some v => if f (o, v) then Some v else None | None => None end.
Proof.
  intros t f o ND. destruct (tget t o) as [v |] eqn:E.
  - destruct (f (o, v)) eqn:F.
    + apply In_tget; [apply nodup_filter; exact ND | ]. apply filter_In. split; [ | exact F].
      apply tget_In; exact E.
    + destruct (tget (filter f t) o) as [w |] eqn:E'; [ | reflexivity].
      apply tget_In in E'. apply filter_In in E' as [Hin F'].
      apply (In_tget _ _ _ ND) in Hin. congruence.
  - destruct (tget (filter f t) o) as [w |] eqn:E'; [ | reflexivity].
    apply tget_In in E'. apply filter_In in E' as [Hin F'].
    apply (In_tget _ _ _ ND) in Hin. congruence.
Qed.

Lemma tget_tdevoid : forall t o, NoDup (map fst t) ->
  tget (tdevoid t) o =
  match tget t o with Some v => if is_void v then None else Some v | None => None end.
Proof.
  intros t o ND. unfold tdevoid. rewrite tget_filter by exact ND.
  destruct (tget t o) as [v |]; [ | reflexivity]. cbn. destruct (is_void v); reflexivity.
Qed.

Lemma fold_replace : forall l t o,
  tget (fold_left (fun t o => treplace t o VVoid) l t) o =
  match tget t o with Some v => Some (if existsb (Z.eqb o) l then VVoid else v) | None => None end.
Proof.
  induction l as [| k l IH]; intros t o; cbn [fold_left existsb].
  - destruct (tget t o); reflexivity.
  - rewrite IH, tget_treplace. rewrite (Z.eqb_sym o k).
    destruct (k =? o); cbn; destruct (tget t o); try reflexivity.
    destruct (existsb (Z.eqb o) l); reflexivity.
Qed.
Lemma fold_replace_keys : forall l t,
  map fst (fold_left (fun t o => treplace t o VVoid) l t) = map fst t.
Proof.
  induction l as [| k l IH]; intros t; cbn [fold_left]; [reflexivity | ].
  rewrite IH. apply keys_treplace.
Qed.
Lemma fold_replace_entries : forall (l : tbl) t,
  fold_left (fun t e => treplace t (fst e) VVoid) l t =
  fold_left (fun t o => treplace t o VVoid) (map fst l) t.
Proof. induction l as [| e l IH]; intros t; cbn; [reflexivity | apply IH]. Qed.

Lemma fold_put : forall l t o,
  tget (fold_left (fun t o => tput t o VLock) l t) o =
  if existsb (Z.eqb o) l then Some VLock else tget t o.
Proof.
  induction l as [| k l IH]; intros t o; cbn [fold_left existsb]; [reflexivity | ].
  rewrite IH, tget_tput, (Z.eqb_sym o k).
  destruct (k =? o); destruct (existsb (Z.eqb o) l); reflexivity.
Qed.
Lemma fold_put_nodup : forall l t, NoDup (map fst t) ->
  NoDup (map fst (fold_left (fun t o => tput t o VLock) l t)).
Proof.
  induction l as [| k l IH]; intros t H; cbn [fold_left]; [exact H | ].
  apply IH, nodup_tput, H.
Qed.

Lemma existsb_In : forall o l, existsb (Z.eqb o) l = true <-> In o l.
Proof.
  intros o l; rewrite existsb_exists. split.
  - intros (x & Hin & E). apply Z.eqb_eq in E; subst; exact Hin.
  - intro H; exists o; split; [exact H | apply Z.eqb_refl].
Qed.

(** ** The invariant *)
Definition entry_ok (s : st) (cu : Z -> saved) (o : Z) (v : val) : Prop :=
  v <> VVoid /\ v <> VUnalloc /\ store s o <> SUnalloc /\
  (v = VLock -> cu o = store s o) /\
  (v <> VLock -> cu o = snap (hp s) v) /\
  (forall i, v = VTab i -> (i < nxt s)%nat /\ t_ro (hp s i) = false /\
     (t_mod (hp s i) = false -> snap (hp s) v = store s o)).
Definition cached_ok (s : st) (o : Z) (v : val) : Prop :=
  v = VVoid \/
  (snap (hp s) v = store s o /\ v <> VLock /\ tget (chg s) o = None /\
   forall i, v = VTab i -> (i < nxt s)%nat /\ t_ro (hp s i) = true).

Record Rok (s : st) (cu : Z -> saved) : Prop := MkR {
  r_chg : forall o v, tget (chg s) o = Some v -> entry_ok s cu o v;
  r_none : forall o, tget (chg s) o = None -> cu o = store s o;
  r_cache : forall o v, tget (cache s) o = Some v -> cached_ok s o v;
  r_uniq : forall o o' i, tget (chg s) o = Some (VTab i) -> tget (chg s) o' = Some (VTab i) -> o = o';
  r_fit : fit (store s);
  r_kchg : NoDup (map fst (chg s));
  r_kcache : NoDup (map fst (cache s)) }.

Lemma R_same : forall s cu cu', Rok s cu -> same cu' cu -> Rok s cu'.
Proof.
  intros s cu cu' [H1 H2 H3 H4 H5 H6 H7] E. constructor; try assumption.
  - intros o v H. destruct (H1 o v H) as (A & B & C & D & F & G).
    unfold entry_ok. rewrite (E o). do 5 (split; [assumption | ]). exact G.
  - intros o H. rewrite (E o). apply H2, H.
Qed.

(** *** Heaps which differ only in objects made since *)
Lemma hset_same : forall h i x, hset h i x i = x.
Proof. intros; unfold hset; rewrite Nat.eqb_refl; reflexivity. Qed.
Lemma hset_other : forall h i x j, j <> i -> hset h i x j = h j.
Proof. intros h i x j H; unfold hset. destruct (Nat.eqb_spec j i); congruence. Qed.

Lemma snap_ext : forall h h' v, (forall i, v = VTab i -> t_body (h' i) = t_body (h i)) ->
  snap h' v = snap h v.
Proof. intros h h' v H. destruct v; cbn; try reflexivity. rewrite H; reflexivity. Qed.

(** A new object changes nothing. *)
Definition with_new (x : tobj) (s : st) : st :=
  MkS (hset (hp s) (nxt s) x) (S (nxt s)) (cache s) (chg s) (store s) (flock s).

Lemma R_new : forall s cu x, Rok s cu -> Rok (with_new x s) cu.
Proof.
  intros s cu x [H1 H2 H3 H4 H5 H6 H7]. constructor; cbn; try assumption.
  - intros o v H. destruct (H1 o v H) as (A & B & C & D & F & G).
    assert (Es : snap (hp (with_new x s)) v = snap (hp s) v).
    { apply snap_ext. intros i ->. destruct (G i eq_refl) as (Hl & _).
      cbn. rewrite hset_other by lia. reflexivity. }
    unfold entry_ok. rewrite Es. split; [exact A | ]. split; [exact B | ]. split; [exact C | ].
    split; [exact D | ]. split; [exact F | ].
    intros i E. destruct (G i E) as (Hl & Hr & Hm). cbn. rewrite hset_other by lia.
    split; [lia | ]. split; assumption.
  - intros o v H. destruct (H3 o v H) as [-> | (A & B & C & D)]; [left; reflexivity | right].
    split; [ | split; [exact B | split; [exact C | ]]].
    + change (store (with_new x s) o) with (store s o).
      rewrite <- A. apply snap_ext. intros i ->. destruct (D i eq_refl) as (Hl & _).
      cbn. rewrite hset_other by lia. reflexivity.
    + intros i E. destruct (D i E) as (Hl & Hr). cbn. rewrite hset_other by lia.
      split; [lia | exact Hr].
Qed.

(** Fetching gives what is stored, in an object of its own. *)
Definition is_new (s : st) (v : val) : Prop := forall i, v = VTab i -> i = nxt s.
Lemma fetch_ok : forall s cu o v s', Rok s cu -> fetch s o = (v, s') ->
  Rok s' cu /\ snap (hp s') v = store s o /\
  cache s' = cache s /\ chg s' = chg s /\ store s' = store s /\ flock s' = flock s /\
  v <> VVoid /\ v <> VLock /\
  (forall i, v = VTab i -> (i < nxt s')%nat /\ t_mod (hp s' i) = false /\ t_ro (hp s' i) = false /\
     (forall o', tget (chg s) o' <> Some v) /\ (forall o', tget (cache s) o' <> Some v)).
Proof.
  intros s cu o v s' HR H. pose proof (r_fit _ _ HR o) as (F1 & F2).
  unfold fetch in H. destruct (store s o) as [| | | | z | z | body] eqn:E; try congruence.
  all: injection H as <- <-; cbn [snap].
  all: try (do 8 (split; [first [assumption | congruence | reflexivity] | ]); intros i Hi; discriminate).
  pose proof (R_new s cu (MkO body false false false) HR) as HR'.
  split; [exact HR' | ]. split; [cbn; rewrite hset_same; reflexivity | ].
  cbn. do 6 (split; [first [congruence | reflexivity] | ]).
  intros i Hi. injection Hi as <-. rewrite hset_same. cbn.
  split; [lia | ]. split; [reflexivity | ]. split; [reflexivity | ]. split.
  - intros o' Ho. destruct (r_chg _ _ HR _ _ Ho) as (_ & _ & _ & _ & _ & G).
    destruct (G _ eq_refl) as (Hl & _). lia.
  - intros o' Ho. destruct (r_cache _ _ HR _ _ Ho) as [E' | (_ & _ & _ & G)]; [discriminate | ].
    destruct (G _ eq_refl) as (Hl & _). lia.
Qed.

(** Setting the bits of one object that neither table holds. *)
Lemma R_bits : forall s cu i x, Rok s cu ->
  (forall o, tget (chg s) o <> Some (VTab i)) -> (forall o, tget (cache s) o <> Some (VTab i)) ->
  Rok (with_hp (hset (hp s) i x) s) cu.
Proof.
  intros s cu i x [H1 H2 H3 H4 H5 H6 H7] Nc Na. constructor; cbn; try assumption.
  - intros o v H. destruct (H1 o v H) as (A & B & C & D & F & G).
    assert (Hi : forall j, v = VTab j -> j <> i).
    { intros j -> ->. exact (Nc _ H). }
    assert (Es : snap (hset (hp s) i x) v = snap (hp s) v).
    { apply snap_ext. intros j E. rewrite hset_other by (apply Hi; exact E). reflexivity. }
    unfold entry_ok. cbn. rewrite Es. split; [exact A | ]. split; [exact B | ].
    split; [exact C | ]. split; [exact D | ]. split; [exact F | ].
    intros j E. rewrite hset_other by (apply Hi; exact E). apply G, E.
  - intros o v H. destruct (H3 o v H) as [-> | (A & B & C & D)]; [left; reflexivity | right].
    assert (Hi : forall j, v = VTab j -> j <> i).
    { intros j -> ->. exact (Na _ H). }
    cbn. split; [ | split; [exact B | split; [exact C | ]]].
    + rewrite <- A. apply snap_ext. intros j E. rewrite hset_other by (apply Hi; exact E). reflexivity.
    + intros j E. rewrite hset_other by (apply Hi; exact E). apply D, E.
Qed.

(** Putting a value that is stored or seen into the table of changes. *)
Lemma R_put : forall s cu o v, Rok s cu ->
  v <> VVoid -> v <> VUnalloc -> v <> VLock -> store s o <> SUnalloc ->
  (forall w, tget (cache s) o = Some w -> w = VVoid) ->
  (forall i, v = VTab i -> (i < nxt s)%nat /\ t_ro (hp s i) = false /\
     (t_mod (hp s i) = false -> snap (hp s) v = store s o) /\
     (forall o', tget (chg s) o' <> Some v)) ->
  Rok (with_chg (tput (chg s) o v) s) (upd cu o (snap (hp s) v)).
Proof.
  intros s cu o v [H1 H2 H3 H4 H5 H6 H7] N1 N2 N3 Ha Hc Hv. constructor; cbn; try assumption.
  - intros o' w H. rewrite tget_tput in H. unfold upd. destruct (o =? o') eqn:E.
    + apply Z.eqb_eq in E; subst o'. injection H as <-. unfold entry_ok; cbn.
      rewrite Z.eqb_refl. do 4 (split; [first [assumption | congruence] | ]).
      split; [intros; reflexivity | ].
      intros i Ei. destruct (Hv i Ei) as (A & B & C & _). auto.
    + destruct (H1 o' w H) as (A & B & C & D & F & G). unfold entry_ok; cbn.
      rewrite Z.eqb_sym, E. do 5 (split; [assumption | ]). exact G.
  - intros o' H. rewrite tget_tput in H. destruct (o =? o') eqn:E; [discriminate | ].
    unfold upd. rewrite Z.eqb_sym, E. apply H2, H.
  - intros o' w H. destruct (o =? o') eqn:E.
    + apply Z.eqb_eq in E; subst o'. left. apply Hc, H.
    + destruct (H3 o' w H) as [-> | (A & B & C & D)]; [left; reflexivity | right].
      cbn. rewrite tget_tput, E. auto.
  - intros a b i Ha' Hb'. rewrite tget_tput in Ha', Hb'.
    destruct (o =? a) eqn:Ea, (o =? b) eqn:Eb.
    + apply Z.eqb_eq in Ea, Eb; congruence.
    + injection Ha' as ->. destruct (Hv i eq_refl) as (_ & _ & _ & N). exfalso; exact (N _ Hb').
    + injection Hb' as ->. destruct (Hv i eq_refl) as (_ & _ & _ & N). exfalso; exact (N _ Ha').
    + exact (H4 a b i Ha' Hb').
  - apply nodup_tput, H6.
Qed.

Lemma tnovoid_some : forall t o, tnovoid t o = true <-> exists v, tget t o = Some v /\ v <> VVoid.
Proof.
  intros t o; unfold tnovoid. destruct (tget t o) as [v |].
  - split.
    + intro H; exists v; split; [reflexivity | intros ->; discriminate].
    + intros (w & E & N). injection E as ->. destruct w; try reflexivity. congruence.
  - split; [discriminate | ]. intros (v & E & _); discriminate.
Qed.

Lemma R_novoid : forall s cu o, Rok s cu -> tnovoid (chg s) o = thas (chg s) o.
Proof.
  intros s cu o HR. unfold tnovoid, thas. destruct (tget (chg s) o) as [v |] eqn:E; [ | reflexivity].
  destruct (r_chg _ _ HR _ _ E) as (N & _). destruct v; congruence.
Qed.

Lemma cache_locked : forall s cu o v w, Rok s cu ->
  tget (chg s) o = Some v -> tget (cache s) o = Some w -> w = VVoid.
Proof.
  intros s cu o v w HR H H'. destruct (r_cache _ _ HR _ _ H') as [E | (_ & _ & N & _)]; congruence.
Qed.

Lemma upd_self : forall m o v, m o = v -> same (upd m o v) m.
Proof.
  intros m o v H k. unfold upd. destruct (k =? o) eqn:E; [ | reflexivity].
  apply Z.eqb_eq in E; subst; reflexivity.
Qed.
Lemma same_sym : forall a b, same a b -> same b a.
Proof. intros a b H o; symmetry; apply H. Qed.
Lemma same_trans : forall a b c, same a b -> same b c -> same a c.
Proof. intros a b c H H' o; rewrite H; apply H'. Qed.
Lemma same_refl : forall a, same a a.
Proof. intros a o; reflexivity. Qed.

(** ** Reading *)
Section WithPool.
Variable c : cfg.
Hypothesis Hlock : nolock c = false.
Hypothesis Hreal : c_svirt c = false.

Lemma pool_get_ok : forall s cu o v s', Rok s cu -> pool_get c s o = (v, s') ->
  Rok s' cu /\ snap (hp s') v = cu o /\ store s' = store s /\
  v <> VVoid /\ v <> VLock /\
  (thas (chg s) o = true -> tget (chg s') o = Some v) /\
  (forall o', thas (chg s') o' = thas (chg s) o').
Proof.
  intros s cu o v s' HR H. unfold pool_get in H.
  rewrite (R_novoid _ _ _ HR) in H. unfold thas in H.
  destruct (tget (chg s) o) as [w |] eqn:E.
  - pose proof (r_chg _ _ HR _ _ E) as (A & B & C & D & F & G).
    assert (Ev : tvalue (chg s) o = w) by (unfold tvalue; rewrite E; reflexivity).
    rewrite Ev in H. destruct (is_lock w) eqn:L.
    + destruct w; try discriminate. clear L.
      destruct (fetch s o) as [f s1] eqn:Ef.
      destruct (fetch_ok _ _ _ _ _ HR Ef) as (HR1 & Es & Ec & Eg & Et & _ & N1 & N2 & Hn).
      rewrite Eg in H. rewrite Ev in H. cbn [is_lock] in H.
      assert (Hc : forall w, tget (cache s1) o = Some w -> w = VVoid).
      { intros w Hw. apply (cache_locked _ _ o VLock w HR1); [rewrite Eg; exact E | exact Hw]. }
      assert (Nu : f <> VUnalloc).
      { intros ->. cbn in Es. congruence. }
      assert (Ecu : snap (hp s1) f = cu o) by (rewrite Es; symmetry; apply D; reflexivity).
      assert (HR2 : Rok (with_chg (tput (chg s) o f) s1) cu).
      { rewrite <- Eg. eapply R_same; [apply (R_put s1 cu o f HR1 N1 Nu N2) | ].
        - rewrite Et; exact C.
        - exact Hc.
        - intros i ->. destruct (Hn i eq_refl) as (X1 & X2 & X3 & X4 & X5).
          rewrite Eg, Et. auto.
        - apply same_sym, upd_self. symmetry; exact Ecu. }
      assert (Hm : modify_readonly false f (with_chg (tput (chg s) o f) s1) =
                   with_chg (tput (chg s) o f) (modify_readonly false f s1))
        by (destruct f; reflexivity).
      destruct f as [| | | | z | z | i]; cbn [modify_readonly] in H; injection H as <- <-.
      all: try (split; [exact HR2 | ]; split; [exact Ecu | ]; split; [exact Et | ];
        split; [congruence | ]; split; [congruence | ]; split;
        [intros _; cbn; rewrite tget_tput, Z.eqb_refl; reflexivity | ];
        intros o'; unfold thas; cbn; rewrite tget_tput;
        destruct (o =? o') eqn:Eo; [apply Z.eqb_eq in Eo; subst; rewrite E; reflexivity | reflexivity]).

      destruct (Hn i eq_refl) as (X1 & X2 & X3 & X4 & X5).
      assert (Hset : forall j, hset (hp s1) i (set_ro false (hp s1 i)) j = hp s1 j).
      { intros j. unfold hset. destruct (Nat.eqb_spec j i); [subst | reflexivity].
        destruct (hp s1 i) as [b m fi r]; cbn in *; subst; reflexivity. }
      assert (HR3 : Rok (with_hp (hset (hp s1) i (set_ro false (hp s1 i)))
                          (with_chg (tput (chg s) o (VTab i)) s1)) cu).
      { destruct HR2 as [Q1 Q2 Q3 Q4 Q5 Q6 Q7]. constructor; cbn in *; try assumption.
        - intros o' v' Hv'. destruct (Q1 o' v' Hv') as (U1 & U2 & U3 & U4 & U5 & U6).
          unfold entry_ok in *; cbn in *.
          assert (Esn : forall vv, snap (hset (hp s1) i (set_ro false (hp s1 i))) vv = snap (hp s1) vv)
            by (intros vv; apply snap_ext; intros j _; rewrite Hset; reflexivity).
          rewrite Esn. do 5 (split; [assumption | ]). intros j Ej. rewrite Hset. apply U6, Ej.
        - intros o' v' Hv'. destruct (Q3 o' v' Hv') as [-> | (U1 & U2 & U3 & U4)];
            [left; reflexivity | right]. unfold cached_ok in *; cbn in *.
          assert (Esn : forall vv, snap (hset (hp s1) i (set_ro false (hp s1 i))) vv = snap (hp s1) vv)
            by (intros vv; apply snap_ext; intros j _; rewrite Hset; reflexivity).
          rewrite Esn. do 3 (split; [assumption | ]). intros j Ej. rewrite Hset. apply U4, Ej. }
      split; [exact HR3 | ]. split.
      { cbn. rewrite Hset. exact Ecu. }
      split; [exact Et | ]. split; [congruence | ]. split; [congruence | ]. split.
      * intros _; cbn; rewrite tget_tput, Z.eqb_refl; reflexivity.
      * intros o'; unfold thas; cbn; rewrite tget_tput.
        destruct (o =? o') eqn:Eo; [apply Z.eqb_eq in Eo; subst; rewrite E; reflexivity | reflexivity].
    + injection H as <- <-.
      assert (Nl : w <> VLock) by (intros ->; discriminate).
      split; [exact HR | ]. split; [symmetry; apply F, Nl | ]. split; [reflexivity | ].
      split; [exact A | ]. split; [exact Nl | ]. split; [intros _; exact E | reflexivity].
  - pose proof (r_none _ _ HR _ E) as Ecu.
    assert (Hth : thas (chg s) o = false) by (unfold thas; rewrite E; reflexivity).
    destruct (Nat.ltb 0 (c_level c) && negb (is_void (tvalue (cache s) o))) eqn:Eg.
    + injection H as <- <-. apply andb_true_iff in Eg as [_ Eg].
      unfold tvalue in *. destruct (tget (cache s) o) as [w |] eqn:Ew; [ | discriminate].
      destruct (r_cache _ _ HR _ _ Ew) as [-> | (A & B & C & D)]; [discriminate | ].
      split; [exact HR | ]. split; [congruence | ]. split; [reflexivity | ].
      split; [intros ->; discriminate | ]. split; [exact B | ].
      split; [congruence | reflexivity].
    + clear Eg. destruct (fetch s o) as [f s1] eqn:Ef.
      destruct (fetch_ok _ _ _ _ _ HR Ef) as (HR1 & Es & Ec & Egg & Et & _ & N1 & N2 & Hn).
      assert (Hsame : forall o', thas (chg s1) o' = thas (chg s) o') by (intro; rewrite Egg; reflexivity).
      destruct (Nat.eqb (c_level c) 0).
      { injection H as <- <-. split; [exact HR1 | ]. split; [congruence | ].
        split; [exact Et | ]. split; [exact N1 | ]. split; [exact N2 | ].
        split; [congruence | exact Hsame]. }
      rewrite Hreal, Hlock in H. cbn [negb] in H.
      assert (Ho1 : tget (chg s1) o = None) by (rewrite Egg; exact E).
      assert (HR2 : forall h', (forall v', (forall i, v' = VTab i -> v' <> f) -> forall i, v' = VTab i -> h' i = hp s1 i) ->
                 snap h' f = snap (hp s1) f ->
                 (forall i, f = VTab i -> t_ro (h' i) = true) ->
                 Rok (with_hp h' (with_cache (tput (cache s1) o f) s1)) cu).
      { intros h' Hh Hs Hr. destruct HR1 as [Q1 Q2 Q3 Q4 Q5 Q6 Q7]. constructor; cbn; try assumption.
        - intros o' v' Hv'. destruct (Q1 o' v' Hv') as (U1 & U2 & U3 & U4 & U5 & U6).
          assert (Hh' : forall i, v' = VTab i -> h' i = hp s1 i).
          { apply Hh. intros i -> Eq. subst f. destruct (Hn i eq_refl) as (_ & _ & _ & X & _).
            rewrite Egg in Hv'. exact (X _ Hv'). }
          unfold entry_ok; cbn.
          assert (Esn : snap h' v' = snap (hp s1) v')
            by (apply snap_ext; intros j Ej; rewrite Hh' by exact Ej; reflexivity).
          rewrite Esn. do 5 (split; [assumption | ]). intros j Ej. rewrite Hh' by exact Ej. apply U6, Ej.
        - intros o' v' Hv'. rewrite tget_tput in Hv'. destruct (o =? o') eqn:Eo.
          + apply Z.eqb_eq in Eo; subst o'. injection Hv' as <-. right. cbn.
            split; [rewrite Hs, Es, Et; reflexivity | ]. split; [exact N2 | ]. split; [exact Ho1 | ].
            intros i Ei. split; [apply (Hn i Ei) | apply Hr; exact Ei].
          + destruct (Q3 o' v' Hv') as [-> | (U1 & U2 & U3 & U4)]; [left; reflexivity | right]. cbn.
            assert (Hh' : forall i, v' = VTab i -> h' i = hp s1 i).
            { apply Hh. intros i -> Eq. subst f. destruct (Hn i eq_refl) as (_ & _ & _ & _ & X).
              rewrite Ec in Hv'. exact (X _ Hv'). }
            split; [ | split; [exact U2 | split; [exact U3 | ]]].
            * rewrite <- U1. apply snap_ext; intros j Ej; rewrite Hh' by exact Ej; reflexivity.
            * intros j Ej. rewrite Hh' by exact Ej. apply U4, Ej.
        - apply nodup_tput; exact Q7. }
      destruct f as [| | | | z | z | i]; cbn [modify_readonly] in H; injection H as <- <-.
      1,3,4,5,6: (split; [apply (HR2 (hp s1)); [reflexivity | reflexivity | discriminate] | ];
        split; [cbn in *; congruence | ]; split; [exact Et | ]; split; [congruence | ];
        split; [congruence | ]; split; [congruence | exact Hsame]).
      { congruence. }
      split.
      { apply (HR2 (hset (hp s1) i (set_ro true (hp s1 i)))).
        - intros v' Hv' j ->. rewrite hset_other; [reflexivity | ]. intros ->.
          exact (Hv' i eq_refl eq_refl).
        - cbn. rewrite hset_same. reflexivity.
        - intros j Ej. injection Ej as <-. rewrite hset_same. reflexivity. }
      split; [cbn; rewrite hset_same; cbn in *; congruence | ]. split; [exact Et | ].
      split; [congruence | ]. split; [congruence | ]. split; [congruence | exact Hsame].
Qed.

End WithPool.

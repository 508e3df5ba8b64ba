(** Allocating, committing and unlocking; whole histories. *)

From Coq Require Import List ZArith Bool Lia ZifyBool.
Import ListNotations.
From Verif Require Import PoolCacheModel PoolCacheSpec PoolCacheProofs PoolCacheProofs2.
Local Open Scope Z_scope.

(** ** Picking what is written *)
Definition ids (l : list (Z * val)) : list nat :=
  flat_map (fun e => match snd e with VTab i => [i] | _ => [] end) l.
Definition holds (l : list (Z * val)) (j : nat) : bool := existsb (fun e => val_eqb (snd e) (VTab j)) l.

Lemma val_eqb_eq : forall a b, val_eqb a b = true <-> a = b.
Proof.
  intros a b; split.
  - destruct a, b; cbn; try discriminate; try reflexivity; intro H;
      try (apply Z.eqb_eq in H; congruence); try (apply Nat.eqb_eq in H; congruence).
  - intros ->; destruct b; cbn; try reflexivity; first [apply Z.eqb_refl | apply Nat.eqb_refl].
Qed.

Lemma in_ids : forall l j, In j (ids l) <-> exists o, In (o, VTab j) l.
Proof.
  intros l j; unfold ids; rewrite in_flat_map. split.
  - intros ([o v] & Hin & H). cbn in H. destruct v; cbn in H; try tauto.
    destruct H as [-> | []]. exists o; exact Hin.
  - intros (o & Hin). exists (o, VTab j); split; [exact Hin | left; reflexivity].
Qed.
Lemma holds_true : forall l j, holds l j = true <-> exists o, In (o, VTab j) l.
Proof.
  intros l j; unfold holds; rewrite existsb_exists. split.
  - intros ([o v] & Hin & H). apply val_eqb_eq in H. cbn in H; subst. exists o; exact Hin.
  - intros (o & Hin). exists (o, VTab j); split; [exact Hin | apply val_eqb_eq; reflexivity].
Qed.

Definition wants (h : heap) (fin : bool) (v : val) : bool :=
  match v with
  | VLock => false
  | VTab i => t_mod (h i) && (negb fin || t_fin (h i))
  | _ => true
  end.

Lemma pick_ok : forall l h fin r h', NoDup (ids l) -> pick h fin l = (r, h') ->
  (forall e, In e r <-> In e l /\ wants h fin (snd e) = true) /\
  (forall j, h' j = if holds r j then set_mod false (h j) else h j).
Proof.
  induction l as [| [o v] l IH]; intros h fin r h' ND H; cbn [pick] in H.
  - injection H as <- <-. split; [intros e; cbn; tauto | reflexivity].
  - destruct (is_lock v) eqn:L.
    + destruct v; try discriminate. destruct (IH h fin r h' ND H) as (A & B). split; [ | exact B].
      intros e. rewrite A. cbn. split; [tauto | ]. intros [[<- | Hin] W]; [discriminate | tauto].
    + destruct (savep h v fin) as [b h1] eqn:Es.
      destruct (pick h1 fin l) as [r1 h2] eqn:Ep.
      assert (ND' : NoDup (ids l)).
      { destruct v; cbn in ND; try exact ND. inversion ND; assumption. }
      destruct (IH h1 fin r1 h2 ND' Ep) as (A & B).
      assert (Hb : b = wants h fin v /\
        (forall j, h1 j = if b && val_eqb v (VTab j) then set_mod false (h j) else h j)).
      { destruct v as [| | | | z | z | i]; cbn in Es; try discriminate L.
        1-5: injection Es as <- <-; split; [reflexivity | intros j; cbn; reflexivity].
        cbn [wants val_eqb]. destruct (t_mod (h i) && (negb fin || t_fin (h i))) eqn:W; injection Es as <- <-.
        - split; [reflexivity | ]. intros j. unfold hset. cbn. rewrite Nat.eqb_sym.
          destruct (Nat.eqb_spec i j); [subst; reflexivity | reflexivity].
        - split; reflexivity. }
      destruct Hb as (Hb & Hh1).
      assert (Hw : forall e, In e l -> wants h1 fin (snd e) = wants h fin (snd e)).
      { intros [o' v'] Hin. cbn. destruct v' as [| | | | z | z | i]; try reflexivity. cbn.
        rewrite Hh1. destruct (b && val_eqb v (VTab i)) eqn:E; [ | reflexivity].
        apply andb_true_iff in E as [_ E]. apply val_eqb_eq in E. subst v. exfalso.
        cbn in ND. inversion ND as [| ? ? Hn _]; subst. apply Hn, in_ids. exists o'; exact Hin. }
      assert (Hni : b = true -> forall j, v = VTab j -> holds r1 j = false).
      { intros _ j ->. destruct (holds r1 j) eqn:E; [ | reflexivity]. exfalso.
        apply holds_true in E as (o' & Hin). apply A in Hin as [Hin _].
        cbn in ND. inversion ND as [| ? ? Hn _]; subst. apply Hn, in_ids. exists o'; exact Hin. }
      injection H as <- <-. split.
      * intros e. destruct b.
        { cbn [In]. rewrite A. split.
          - intros [<- | [Hin W]]; [split; [left; reflexivity | cbn; congruence] | ].
            split; [right; exact Hin | ]. rewrite <- Hw by exact Hin. exact W.
          - intros [[<- | Hin] W]; [left; reflexivity | right].
            split; [exact Hin | rewrite Hw by exact Hin; exact W]. }
        { rewrite A. cbn [In]. split.
          - intros [Hin W]. split; [right; exact Hin | ]. rewrite <- Hw by exact Hin. exact W.
          - intros [[<- | Hin] W]; [cbn in W; congruence | ].
            split; [exact Hin | rewrite Hw by exact Hin; exact W]. }
      * intros j. rewrite B, Hh1. destruct b; cbn [andb].
        { unfold holds. cbn [existsb snd]. fold (holds r1 j).
          destruct (val_eqb v (VTab j)) eqn:E; cbn [orb]; [ | reflexivity].
          apply val_eqb_eq in E. rewrite (Hni eq_refl j E). reflexivity. }
        { reflexivity. }
Qed.

Lemma put_saved_ok : forall l m h k,
  (exists v, In (k, v) l /\ put_saved m h l k = dwrite h v) \/
  (~ (exists v, In (k, v) l) /\ put_saved m h l k = m k).
Proof.
  intros l m h k. unfold put_saved.
  induction l as [| [o v] l IH] using rev_ind.
  - right. split; [intros (v & []) | reflexivity].
  - rewrite fold_left_app. cbn [fold_left fst snd]. destruct (k =? o) eqn:E.
    + apply Z.eqb_eq in E; subst. left. exists v. rewrite in_app_iff. cbn. auto.
    + apply Z.eqb_neq in E. destruct IH as [(w & Hin & Hp) | (Hn & Hp)].
      * left. exists w. rewrite in_app_iff. auto.
      * right. split; [ | exact Hp]. intros (w & Hin). apply in_app_iff in Hin as [Hin | Hin].
        { apply Hn. exists w; exact Hin. }
        cbn in Hin. destruct Hin as [Hin | []]. congruence.
Qed.

(** ** Letting go of what was written *)
Lemma finish_all_ok : forall co h l t n t', finish_all co h l t = (n, t') ->
  map fst t' = map fst t /\
  forall o, tget t' o = tget t o \/
            (tget t' o = Some VVoid /\ exists v, In (o, v) l /\ tget t o = Some v).
Proof.
  intros co h; induction l as [| [o v] l IH]; intros t n t' H; cbn [finish_all] in H.
  - injection H as <- <-. split; [reflexivity | auto].
  - destruct (finish_one co h (o, v) t) as [b t1] eqn:E1.
    destruct (finish_all co h l t1) as [n2 t2] eqn:E2. injection H as _ <-.
    assert (H1 : t1 = t \/ t1 = treplace t o VVoid /\ tget t o = Some v).
    { unfold finish_one in E1. destruct (tget t o) as [w |] eqn:Eg; [ | left; congruence].
      destruct (val_eqb w v) eqn:Ew; cbn [negb] in E1; [ | left; congruence].
      apply val_eqb_eq in Ew; subst w.
      destruct v as [| | | | z | z | i].
      all: try (right; split; [congruence | reflexivity]).
      - destruct (negb (co_held co o)); [right; split; [congruence | reflexivity] | left; congruence].
      - destruct (negb (t_mod (h i)) && negb (co_held co o));
          [right; split; [congruence | reflexivity] | left; congruence]. }
    destruct (IH t1 n2 t2 E2) as (K & A). destruct H1 as [-> | (-> & Hg)].
    + split; [exact K | ]. intros k. destruct (A k) as [X | (X & w & Hin & Hw)]; [left; exact X | right].
      split; [exact X | ]. exists w. split; [right; exact Hin | exact Hw].
    + rewrite keys_treplace in K. split; [exact K | ]. intros k.
      specialize (A k). rewrite tget_treplace in A. destruct (o =? k) eqn:E.
      * apply Z.eqb_eq in E; subst k. rewrite Hg in A. right. split.
        { destruct A as [X | (X & _)]; exact X. }
        exists v. split; [left; reflexivity | exact Hg].
      * destruct A as [X | (X & w & Hin & Hw)]; [left; exact X | right].
        split; [exact X | ]. exists w. split; [right; exact Hin | exact Hw].
Qed.

Lemma finish_commit_ok : forall co s l, 0 <= co_unlock co ->
  NoDup (map fst (chg s)) -> (forall o, tget (chg s) o <> Some VVoid) ->
  let s' := finish_commit co s l in
  hp s' = hp s /\ nxt s' = nxt s /\ cache s' = cache s /\ store s' = store s /\
  NoDup (map fst (chg s')) /\
  forall o, tget (chg s') o = tget (chg s) o \/
            (tget (chg s') o = None /\ exists v, In (o, v) l /\ tget (chg s) o = Some v).
Proof.
  intros co s l Hu ND Hv. unfold finish_commit.
  destruct (finish_all co (hp s) l (chg s)) as [n t] eqn:E.
  destruct (finish_all_ok _ _ _ _ _ _ E) as (K & A).
  assert (NDt : NoDup (map fst t)) by (rewrite K; exact ND).
  assert (Hd : NoDup (map fst (tdevoid t)) /\ forall o, tget (tdevoid t) o = tget (chg s) o \/
            (tget (tdevoid t) o = None /\ exists v, In (o, v) l /\ tget (chg s) o = Some v)).
  { split; [apply nodup_filter; exact NDt | ]. intros o. rewrite tget_tdevoid by exact NDt.
    destruct (A o) as [X | (X & Y)].
    - left. rewrite X. specialize (Hv o). destruct (tget (chg s) o) as [v |]; [ | reflexivity].
      destruct v; try reflexivity. congruence.
    - right. rewrite X. split; [reflexivity | exact Y]. }
  destruct (Nat.eqb n 0); [cbn; repeat (split; [reflexivity | ]); exact Hd | ].
  assert (Eu : (co_unlock co <? 0) = false) by (apply Z.ltb_ge; exact Hu). rewrite Eu.
  assert (Hdu : hp (driver_unlock (with_chg t s)) = hp s /\ nxt (driver_unlock (with_chg t s)) = nxt s /\
     cache (driver_unlock (with_chg t s)) = cache s /\ store (driver_unlock (with_chg t s)) = store s /\
     chg (driver_unlock (with_chg t s)) = t).
  { unfold driver_unlock; cbn. destruct t; repeat split. }
  destruct Hdu as (U1 & U2 & U3 & U4 & U5).
  cbn. rewrite U1, U2, U3, U4, U5. repeat (split; [reflexivity | ]). exact Hd.
Qed.

Lemma abort_ok : forall l h j,
  abort_commit h l j = if holds l j then set_mod true (h j) else h j.
Proof.
  unfold abort_commit. induction l as [| [o v] l IH]; intros h j; cbn [fold_left]; [reflexivity | ].
  rewrite IH. unfold holds. cbn [existsb snd]. fold (holds l j).
  destruct v as [| | | | z | z | i]; cbn [val_eqb orb]; try reflexivity.
  unfold hset. rewrite (Nat.eqb_sym i j). destruct (Nat.eqb_spec j i); cbn [orb]; [subst | reflexivity].
  destruct (holds l i); reflexivity.
Qed.

(** ** Committing *)
Section Commit.
Variables (s : st) (cu : Z -> saved).
Hypothesis HR : Rok s cu.

(** Entries of the table of changes that are written. *)
Definition picked (l : list (Z * val)) (h' : heap) : Prop :=
  (forall o v, In (o, v) l -> tget (chg s) o = Some v /\ v <> VLock) /\
  (forall j, h' j = if holds l j then set_mod false (hp s j) else hp s j).

Lemma picked_snap : forall l h' v, picked l h' -> snap h' v = snap (hp s) v.
Proof.
  intros l h' v (_ & B). apply snap_ext. intros i _. rewrite B. destruct (holds l i); reflexivity.
Qed.

Lemma picked_write : forall l h' o v, picked l h' -> In (o, v) l -> dwrite h' v = cu o.
Proof.
  intros l h' o v HP Hin. destruct HP as (A & B) eqn:EP. destruct (A o v Hin) as (Hg & Nl).
  destruct (r_chg _ _ HR _ _ Hg) as (N1 & N2 & _ & _ & F & _).
  rewrite (F Nl), <- (picked_snap l h' v HP). destruct v; try reflexivity; congruence.
Qed.

Lemma commit_R : forall l h' t' m', picked l h' ->
  (forall o, (exists v, In (o, v) l /\ m' o = dwrite h' v) \/ (~ (exists v, In (o, v) l) /\ m' o = store s o)) ->
  NoDup (map fst t') ->
  (forall o, tget t' o = tget (chg s) o \/
     (tget t' o = None /\ exists v, In (o, v) l /\ tget (chg s) o = Some v)) ->
  forall b, Rok (MkS h' (nxt s) (cache s) t' m' b) cu.
Proof.
  intros l h' t' m' HP Hm ND Ht b. destruct HR as [H1 H2 H3 H4 H5 H6 H7].
  assert (Hmu : forall o, m' o = cu o \/ m' o = store s o).
  { intros o. destruct (Hm o) as [(v & Hin & E) | (_ & E)]; [left | right; exact E].
    rewrite E. exact (picked_write _ _ _ _ HP Hin). }
  assert (Hal : forall o, store s o <> SUnalloc -> m' o <> SUnalloc).
  { intros o Ho. destruct (Hm o) as [(v & Hin & E) | (_ & E)]; rewrite E; [ | exact Ho].
    destruct HP as (A & _). destruct (A _ _ Hin) as (Hg & _).
    destruct (H1 _ _ Hg) as (N1 & N2 & _). destruct v; cbn; congruence. }
  constructor; cbn; try assumption.
  - intros o v H. destruct (Ht o) as [X | (X & _)]; [ | congruence]. rewrite X in H.
    destruct (H1 o v H) as (A & B & C & D & F & G). unfold entry_ok; cbn.
    rewrite (picked_snap _ _ v HP).
    split; [exact A | ]. split; [exact B | ]. split; [apply Hal, C | ]. split.
    { intros ->. destruct (Hmu o) as [E | E]; [symmetry; exact E | rewrite E; apply D; reflexivity]. }
    split; [exact F | ]. intros i ->. destruct (G i eq_refl) as (G1 & G2 & G3).
    destruct HP as (P1 & P2). rewrite P2. split; [exact G1 | ].
    destruct (holds l i) eqn:Eh.
    + split; [exact G2 | ]. intros _. apply holds_true in Eh as (o' & Hin).
      destruct (P1 _ _ Hin) as (Hg & _). assert (o' = o) by exact (H4 _ _ _ Hg H). subst o'.
      destruct (Hm o) as [(v & Hin' & E) | (Hn & _)]; [ | exfalso; apply Hn; exists (VTab i); exact Hin].
      rewrite E, <- (F ltac:(discriminate)). symmetry. exact (picked_write _ _ _ _ (conj P1 P2) Hin').
    + split; [exact G2 | ]. intros Hmod. destruct (Hmu o) as [E | E]; rewrite E.
      * symmetry. apply F. discriminate.
      * apply G3, Hmod.
  - intros o H. destruct (Ht o) as [X | (X & v & Hin & Hg)].
    + rewrite X in H. destruct (Hmu o) as [E | E]; [symmetry; exact E | ]. rewrite E. apply H2, H.
    + destruct (Hm o) as [(w & Hin' & E) | (Hn & _)]; [ | exfalso; apply Hn; exists v; exact Hin].
      rewrite E. symmetry. exact (picked_write _ _ _ _ HP Hin').
  - intros o v H. destruct (H3 o v H) as [-> | (A & B & C & D)]; [left; reflexivity | right]. cbn.
    rewrite (picked_snap _ _ v HP). split; [ | split; [exact B | split]].
    + destruct (Hm o) as [(w & Hin & _) | (_ & E)]; [ | congruence].
      destruct HP as (P1 & _). destruct (P1 _ _ Hin) as (Hg & _). congruence.
    + destruct (Ht o) as [X | (X & _)]; congruence.
    + intros i ->. destruct (D i eq_refl) as (D1 & D2). split; [exact D1 | ].
      destruct HP as (_ & P2). rewrite P2. destruct (holds l i); exact D2.
  - intros o o' i Ho Ho'. destruct (Ht o) as [X | (X & _)]; [ | congruence].
    destruct (Ht o') as [X' | (X' & _)]; [ | congruence]. rewrite X in Ho. rewrite X' in Ho'.
    exact (H4 _ _ _ Ho Ho').
  - intros o. destruct (Hmu o) as [E | E]; rewrite E; [ | apply H5].
    destruct (tget (chg s) o) as [v |] eqn:Eg.
    + destruct (H1 o v Eg) as (A & B & C & D & F & G).
      destruct v as [| | | | z | z | i]; try congruence.
      all: try (rewrite (F ltac:(discriminate)); cbn; split; discriminate).
      rewrite (D eq_refl). apply H5.
    + rewrite (H2 o Eg). apply H5.
Qed.

(** A commit that fails: the bits are set again. *)
Lemma abort_R : forall l h' k, picked l h' ->
  Rok (MkS (abort_commit h' l) (nxt s) (cache s) (chg s)
         (put_saved (store s) h' (firstn k l)) (flock s)) cu /\
  (forall o, put_saved (store s) h' (firstn k l) o = store s o \/
             put_saved (store s) h' (firstn k l) o = cu o).
Proof.
  intros l h' k HP. destruct HR as [H1 H2 H3 H4 H5 H6 H7].
  set (m' := put_saved (store s) h' (firstn k l)).
  assert (Hfs : forall e, In e (firstn k l) -> In e l).
  { intros e Hin. rewrite <- (firstn_skipn k l). apply in_app_iff. left; exact Hin. }
  assert (Hm : forall o, (exists v, In (o, v) l /\ m' o = cu o) \/ m' o = store s o).
  { intros o. destruct (put_saved_ok (firstn k l) (store s) h' o) as [(v & Hin & E) | (_ & E)].
    - left. exists v. split; [apply Hfs, Hin | ]. unfold m'. rewrite E.
      exact (picked_write _ _ _ _ HP (Hfs _ Hin)).
    - right. exact E. }
  assert (Hmu : forall o, m' o = store s o \/ m' o = cu o).
  { intros o. destruct (Hm o) as [(v & _ & E) | E]; auto. }
  split; [ | exact Hmu].
  assert (Hh : forall j, abort_commit h' l j = if holds l j then set_mod true (hp s j) else hp s j).
  { intros j. rewrite abort_ok. destruct HP as (_ & P2). rewrite P2. destruct (holds l j); reflexivity. }
  assert (Hsn : forall v, snap (abort_commit h' l) v = snap (hp s) v).
  { intros v. apply snap_ext. intros i _. rewrite Hh. destruct (holds l i); reflexivity. }
  constructor; cbn; try assumption.
  - intros o v H. destruct (H1 o v H) as (A & B & C & D & F & G). unfold entry_ok; cbn.
    rewrite Hsn. split; [exact A | ]. split; [exact B | ]. split; [ | split; [ | split; [exact F | ]]].
    + destruct (Hmu o) as [E | E]; rewrite E; [exact C | ].
      destruct v as [| | | | z | z | i]; try congruence;
        try (rewrite (F ltac:(discriminate)); cbn; discriminate).
      rewrite (D eq_refl). exact C.
    + intros ->. destruct (Hmu o) as [E | E]; rewrite E; [apply D; reflexivity | reflexivity].
    + intros i ->. destruct (G i eq_refl) as (G1 & G2 & G3). rewrite Hh. split; [exact G1 | ].
      destruct (holds l i) eqn:Eh; [split; [exact G2 | discriminate] | ].
      split; [exact G2 | ]. intros Hmod. destruct (Hmu o) as [E | E]; rewrite E.
      * apply G3, Hmod.
      * symmetry. apply F. discriminate.
  - intros o H. destruct (Hmu o) as [E | E]; rewrite E; [apply H2, H | reflexivity].
  - intros o v H. destruct (H3 o v H) as [-> | (A & B & C & D)]; [left; reflexivity | right]. cbn.
    rewrite Hsn. split; [ | split; [exact B | split; [exact C | ]]].
    + destruct (Hm o) as [(w & Hin & _) | E]; [ | congruence].
      destruct HP as (P1 & _). destruct (P1 _ _ Hin) as (Hg & _). congruence.
    + intros i ->. destruct (D i eq_refl) as (D1 & D2). split; [exact D1 | ]. rewrite Hh.
      destruct (holds l i); exact D2.
  - intros o. destruct (Hmu o) as [E | E]; rewrite E; [apply H5 | ].
    destruct (tget (chg s) o) as [v |] eqn:Eg.
    + destruct (H1 o v Eg) as (A & B & C & D & F & G).
      destruct v as [| | | | z | z | i]; try congruence.
      all: try (rewrite (F ltac:(discriminate)); cbn; split; discriminate).
      rewrite (D eq_refl). apply H5.
    + rewrite (H2 o Eg). apply H5.
Qed.

Lemma ids_nodup : forall l, NoDup (map fst l) ->
  (forall o v, In (o, v) l -> forall i, v = VTab i -> tget (chg s) o = Some v) -> NoDup (ids l).
Proof.
  induction l as [| [o v] l IH]; intros ND H; cbn; [constructor | ].
  cbn in ND. inversion ND as [| ? ? Hn ND']; subst.
  assert (IHl : NoDup (ids l)) by (apply IH; [exact ND' | intros a b Hin; apply H; right; exact Hin]).
  destruct v as [| | | | z | z | i]; cbn; try exact IHl.
  constructor; [ | exact IHl]. intros Hin. apply in_ids in Hin as (o' & Hin).
  assert (E : o' = o).
  { apply (r_uniq _ _ HR o' o i).
    - apply (H o' (VTab i) (or_intror Hin) i eq_refl).
    - apply (H o (VTab i) (or_introl eq_refl) i eq_refl). }
  subst. apply Hn, in_map_iff. exists (o, VTab i); auto.
Qed.

(** What each kind of commit picks. *)
Definition named_by (w : which) (o : Z) : bool :=
  match w with WNamed os => existsb (Z.eqb o) os | _ => true end.
Definition finonly (w : which) : bool := match w with WFinished => true | _ => false end.

Lemma pick_which : forall w l h',
  (match w with
   | WAll => pick (hp s) false (chg s)
   | WFinished => pick (hp s) true (chg s)
   | WNamed os => pick_named (hp s) os (chg s)
   end) = (l, h') ->
  match w with WNamed os => named_ok s os | _ => True end ->
  picked l h' /\
  (forall o v, tget (chg s) o = Some v -> named_by w o = true -> wants (hp s) (finonly w) v = true -> In (o, v) l) /\
  (forall o v, In (o, v) l -> named_by w o = true).
Proof.
  intros w l h' H Hw. pose proof (r_kchg _ _ HR) as ND.
  assert (Hall : forall fin, pick (hp s) fin (chg s) = (l, h') -> picked l h' /\
     (forall o v, tget (chg s) o = Some v -> wants (hp s) fin v = true -> In (o, v) l)).
  { intros fin Hp.
    destruct (pick_ok (chg s) (hp s) fin l h') as (A & B); [ | exact Hp | ].
    { apply ids_nodup; [exact ND | ]. intros o v Hin i _. apply In_tget; assumption. }
    split; [split; [ | exact B] | ].
    - intros o v Hin. apply A in Hin as (Hin & W). cbn in W. split; [apply In_tget; assumption | ].
      intros ->; discriminate.
    - intros o v Hg W. apply A. split; [apply tget_In; exact Hg | exact W]. }
  destruct w as [| | os].
  - destruct (Hall false H) as (A & B). split; [exact A | ]. split; [intros o v Hg _ W; apply B; assumption | reflexivity].
  - destruct (Hall true H) as (A & B). split; [exact A | ]. split; [intros o v Hg _ W; apply B; assumption | reflexivity].
  - destruct Hw as (NDo & Hlk).
    assert (Hg : forall o, In o os -> exists v, tget (chg s) o = Some v /\ tvalue (chg s) o = v).
    { intros o Ho. apply Hlk in Ho. unfold lockedp in Ho. apply tnovoid_some in Ho as (v & E & _).
      exists v. split; [exact E | ]. unfold tvalue; rewrite E; reflexivity. }
    unfold pick_named in H. set (l0 := map (fun o => (o, tvalue (chg s) o)) os) in H.
    assert (Hin0 : forall o v, In (o, v) l0 <-> In o os /\ tget (chg s) o = Some v).
    { intros o v. unfold l0. rewrite in_map_iff. split.
      - intros (o' & E & Hin). injection E as -> <-. destruct (Hg o Hin) as (w & E1 & E2).
        split; [exact Hin | congruence].
      - intros (Hin & E). exists o. split; [ | exact Hin]. unfold tvalue; rewrite E; reflexivity. }
    destruct (pick_ok l0 (hp s) false l h') as (A & B); [ | exact H | ].
    { apply ids_nodup.
      - unfold l0. rewrite map_map. cbn. rewrite map_id. exact NDo.
      - intros o v Hin i _. apply Hin0 in Hin. tauto. }
    split; [split; [ | exact B] | split].
    + intros o v Hin. apply A in Hin as (Hin & W). apply Hin0 in Hin as (_ & E). split; [exact E | ].
      cbn in W. intros ->; discriminate.
    + intros o v E Hn W. apply A. split; [ | exact W]. apply Hin0. split; [ | exact E].
      apply existsb_In. exact Hn.
    + intros o v Hin. apply A in Hin as (Hin & _). apply Hin0 in Hin as (Hin & _).
      apply existsb_In. exact Hin.
Qed.

Lemma commit_ok : forall w co r s',
  0 <= co_unlock co -> match w with WNamed os => named_ok s os | _ => True end ->
  pool_commit s w co = (r, s') ->
  Rok s' cu /\
  (r < 0 -> forall o, store s' o = store s o \/ store s' o = cu o) /\
  (0 <= r -> stored_as w (MkV cu (store s)) (MkV cu (store s'))) /\
  (co_start co && co_write co = true -> 0 <= r) /\
  (forall o, tget (chg s') o = None \/ tget (chg s') o = tget (chg s) o).
Proof.
  intros w co r s' Hu Hw H. unfold pool_commit in H.
  assert (Hnv : forall o, tget (chg s) o <> Some VVoid).
  { intros o Ho. destruct (r_chg _ _ HR _ _ Ho) as (N & _). congruence. }
  destruct (chg s) as [| e0 c0] eqn:Ec.
  - injection H as <- <-. split; [exact HR | ]. split; [lia | ].
    assert (Heq : forall o, cu o = store s o) by (intro o; apply (r_none _ _ HR); rewrite Ec; reflexivity).
    split; [ | split; [lia | intros o; right; rewrite Ec; reflexivity]]. intros _. destruct w as [| | os]; cbn.
    + split; intro o; cbn; [reflexivity | symmetry; apply Heq].
    + split; [intro; reflexivity | ]. intros o; left; reflexivity.
    + split; [intro; reflexivity | ]. intros o. cbn. destruct (existsb (Z.eqb o) os); [symmetry; apply Heq | reflexivity].
  - rewrite <- Ec in *. destruct (co_start co) eqn:Eco; cbn [negb andb] in *.
    2:{ injection H as <- <-. split; [exact HR | ]. split; [auto | ]. split; [lia | ].
        split; [discriminate | auto]. }
    destruct (match w with
      | WAll => pick (hp s) false (chg s)
      | WFinished => pick (hp s) true (chg s)
      | WNamed os => pick_named (hp s) os (chg s) end) as [l h'] eqn:Ep.
    destruct (pick_which w l h' Ep Hw) as (HP & Hin & Hnm).
    (* the case of success, with the store given *)
    assert (Hsucc : forall m', (forall o, (exists v, In (o, v) l /\ m' o = dwrite h' v) \/
                        (~ (exists v, In (o, v) l) /\ m' o = store s o)) ->
       forall s1, hp s1 = h' -> nxt s1 = nxt s -> cache s1 = cache s -> chg s1 = chg s -> store s1 = m' ->
       let s2 := finish_commit co s1 l in
       Rok s2 cu /\ stored_as w (MkV cu (store s)) (MkV cu (store s2)) /\
       (forall o, tget (chg s2) o = None \/ tget (chg s2) o = tget (chg s) o)).
    { intros m' Hm s1 E1 E2 E3 E4 E5 s2.
      destruct (finish_commit_ok co s1 l Hu) as (F1 & F2 & F3 & F4 & F5 & F6).
      { rewrite E4. apply (r_kchg _ _ HR). } { rewrite E4. exact Hnv. }
      fold s2 in F1, F2, F3, F4, F5, F6. rewrite E4 in F6. rewrite E5 in F4.
      assert (HR2 : Rok s2 cu).
      { replace s2 with (MkS h' (nxt s) (cache s) (chg s2) m' (flock s2)).
        - apply (commit_R l h' (chg s2) m' HP Hm F5 F6).
        - rewrite <- E1, <- E2, <- E3, <- F1, <- F2, <- F3, <- F4. destruct s2; reflexivity. }
      split; [exact HR2 | ]. split.
      2:{ intros o. destruct (F6 o) as [X | (X & _)]; auto. }
      assert (Hval : forall o, named_by w o = true -> finonly w = false -> m' o = cu o).
      { intros o Hn Hf. destruct (Hm o) as [(v & Hi & E) | (Hno & E)].
        - rewrite E. exact (picked_write _ _ _ _ HP Hi).
        - rewrite E. destruct (tget (chg s) o) as [v |] eqn:Eg; [ | symmetry; apply (r_none _ _ HR), Eg].
          destruct (wants (hp s) (finonly w) v) eqn:W.
          { exfalso. apply Hno. exists v. apply Hin; assumption. }
          rewrite Hf in W. destruct (r_chg _ _ HR _ _ Eg) as (_ & _ & _ & D & F & G).
          destruct v as [| | | | z | z | i]; cbn in W; try discriminate.
          + symmetry; apply D; reflexivity.
          + rewrite andb_true_r in W. destruct (G i eq_refl) as (_ & _ & G3).
            rewrite <- (G3 W). symmetry. apply F. discriminate. }
      rewrite F4. destruct w as [| | os]; cbn [stored_as cur disk].
      + split; [intro; reflexivity | ]. intros o. apply Hval; reflexivity.
      + split; [intro; reflexivity | ]. intros o. cbn. destruct (Hm o) as [(v & Hi & E) | (_ & E)]; [right | left; exact E].
        rewrite E. exact (picked_write _ _ _ _ HP Hi).
      + split; [intro; reflexivity | ]. intros o. destruct (existsb (Z.eqb o) os) eqn:En.
        * apply Hval; [exact En | reflexivity].
        * destruct (Hm o) as [(v & Hi & _) | (_ & E)]; [ | exact E].
          apply Hnm in Hi. cbn in Hi. congruence. }
    destruct l as [| e1 l1] eqn:El.
    + injection H as <- <-.
      destruct (Hsucc (store s) (fun o => or_intror (conj (fun X => match X with ex_intro _ _ Y => Y end) eq_refl))
                  (with_hp h' s) eq_refl eq_refl eq_refl eq_refl eq_refl) as (A & B & C).
      split; [exact A | ]. split; [lia | ]. split; [intros _; exact B | ]. split; [lia | exact C].
    + rewrite <- El in *. assert (Hlen : 0 <= Z.of_nat (length l)) by lia.
      destruct (co_write co) eqn:Ew.
      * assert (H' : (Z.of_nat (length l), finish_commit co (with_store (put_saved (store s) h' l) (with_hp h' s)) l) = (r, s'))
          by (rewrite El in *; exact H). injection H' as <- <-.
        destruct (Hsucc (put_saved (store s) h' l) (put_saved_ok l (store s) h')
                  (with_store (put_saved (store s) h' l) (with_hp h' s)) eq_refl eq_refl eq_refl eq_refl eq_refl) as (A & B & C).
        split; [exact A | ]. split; [lia | ]. split; [intros _; exact B | ]. split; [lia | exact C].
      * assert (H' : (-1, with_hp (abort_commit h' l)
                    (with_store (put_saved (store s) h' (firstn (co_left co) l)) (with_hp h' s))) = (r, s'))
          by (rewrite El in *; exact H). injection H' as <- <-.
        destruct (abort_R l h' (co_left co) HP) as (A & B).
        split; [exact A | ]. split; [intros _; exact B | ]. split; [lia | ]. split; [discriminate | ].
        intros o; right; reflexivity.
Qed.

End Commit.

(** ** Unlocking *)
Lemma unlock_rest_ok : forall s cu, Rok s cu ->
  let go := filter (fun e => negb (is_void (snd e)) && negb (modifiedp (hp s) (snd e))) (chg s) in
  Rok (with_chg (tdevoid (fold_left (fun t e => treplace t (fst e) VVoid) go (chg (driver_unlock s))))
         (driver_unlock s)) cu.
Proof.
  intros s cu HR go. pose proof (r_kchg _ _ HR) as ND.
  assert (Hd : chg (driver_unlock s) = chg s /\ hp (driver_unlock s) = hp s /\ nxt (driver_unlock s) = nxt s /\
               cache (driver_unlock s) = cache s /\ store (driver_unlock s) = store s).
  { unfold driver_unlock. destruct (chg s) eqn:E; cbn; rewrite ?E; repeat split. }
  destruct Hd as (D1 & D2 & D3 & D4 & D5). rewrite D1.
  set (t := fold_left _ go (chg s)).
  assert (Ht : forall o, tget (tdevoid t) o =
     match tget (chg s) o with
     | Some v => if existsb (Z.eqb o) (map fst go) then None else Some v
     | None => None end).
  { intros o. rewrite tget_tdevoid.
    - unfold t. rewrite fold_replace_entries, fold_replace.
      destruct (tget (chg s) o) as [v |] eqn:E; [ | reflexivity].
      destruct (existsb (Z.eqb o) (map fst go)); [reflexivity | ].
      destruct (r_chg _ _ HR _ _ E) as (N & _). destruct v; try reflexivity; congruence.
    - unfold t. rewrite fold_replace_entries, fold_replace_keys. exact ND. }
  assert (NDt : NoDup (map fst (tdevoid t))).
  { apply nodup_filter. unfold t. rewrite fold_replace_entries, fold_replace_keys. exact ND. }
  assert (Hgo : forall o v, tget (chg s) o = Some v -> existsb (Z.eqb o) (map fst go) = true -> cu o = store s o).
  { intros o v Hg He. apply existsb_In in He. apply in_map_iff in He as ((o' & w) & E & Hin). cbn in E; subst o'.
    apply filter_In in Hin as (Hin & Hf). apply (In_tget _ _ _ ND) in Hin.
    assert (w = v) by congruence. subst w. cbn in Hf. apply andb_true_iff in Hf as (_ & Hf).
    apply negb_true_iff in Hf. destruct (r_chg _ _ HR _ _ Hg) as (_ & _ & _ & _ & F & G).
    destruct v as [| | | | z | z | i]; cbn in Hf; try discriminate.
    destruct (G i eq_refl) as (_ & _ & G3). rewrite <- (G3 Hf). apply F. discriminate. }
  destruct HR as [H1 H2 H3 H4 H5 H6 H7]. constructor; cbn.
  - intros o v H. rewrite Ht in H. destruct (tget (chg s) o) as [w |] eqn:E; [ | discriminate].
    destruct (existsb (Z.eqb o) (map fst go)); [discriminate | ]. injection H as ->.
    destruct (H1 _ _ E) as (A & B & C & D & F & G). unfold entry_ok; cbn. rewrite D2, D3, D5.
    do 5 (split; [assumption | ]). exact G.
  - intros o H. rewrite D5. rewrite Ht in H. destruct (tget (chg s) o) as [w |] eqn:E; [ | apply H2, E].
    destruct (existsb (Z.eqb o) (map fst go)) eqn:Ee; [ | discriminate]. exact (Hgo _ _ E Ee).
  - intros o v H. rewrite D4 in H. destruct (H3 o v H) as [-> | (A & B & C & D)]; [left; reflexivity | right].
    cbn. rewrite D2, D3, D5, Ht, C. auto.
  - intros o o' i H H'. rewrite Ht in H, H'.
    destruct (tget (chg s) o) as [w |] eqn:E; [ | discriminate].
    destruct (tget (chg s) o') as [w' |] eqn:E'; [ | discriminate].
    destruct (existsb (Z.eqb o) (map fst go)); [discriminate | ].
    destruct (existsb (Z.eqb o') (map fst go)); [discriminate | ].
    injection H as ->. injection H' as ->. exact (H4 _ _ _ E E').
  - rewrite D5. exact H5.
  - exact NDt.
  - rewrite D4. exact H7.
Qed.

Lemma discard_ok : forall s cu, Rok s cu -> Rok (with_chg [] (driver_unlock s)) (store s).
Proof.
  intros s cu HR.
  assert (Hd : hp (driver_unlock s) = hp s /\ nxt (driver_unlock s) = nxt s /\
               cache (driver_unlock s) = cache s /\ store (driver_unlock s) = store s).
  { unfold driver_unlock. destruct (chg s) eqn:E; cbn; repeat split. }
  destruct Hd as (D2 & D3 & D4 & D5). destruct HR as [H1 H2 H3 H4 H5 H6 H7].
  constructor; cbn; rewrite ?D5, ?D4; try assumption; try discriminate.
  - intros o _; reflexivity.
  - intros o v H. destruct (H3 o v H) as [-> | (A & B & C & D)]; [left; reflexivity | right].
    cbn. rewrite D2, D3, D5. auto.
  - constructor.
Qed.

(** ** Finishing, allocating *)
Lemma finish_fin_ok : forall os s cu, Rok s cu -> Rok (pool_finish s os) cu /\ store (pool_finish s os) = store s.
Proof.
  unfold pool_finish. induction os as [| o os IH]; intros s cu HR; cbn [fold_left]; [auto | ].
  match goal with |- context [fold_left ?F os ?S] => set (s1 := S); set (FF := F) end.
  assert (H : Rok s1 cu /\ store s1 = store s).
  { unfold s1. destruct (tvalue (chg s) o) as [| | | | z | z | i]; auto.
    destruct (t_mod (hp s i)) eqn:Em; auto. split; [ | reflexivity].
    set (h' := hset (hp s) i (set_fin true (hp s i))).
    assert (Hb : forall j, t_body (h' j) = t_body (hp s j) /\ t_mod (h' j) = t_mod (hp s j) /\ t_ro (h' j) = t_ro (hp s j)).
    { intros j. unfold h', hset. destruct (Nat.eqb_spec j i); [subst | ]; repeat split; reflexivity. }
    assert (Hs : forall v, snap h' v = snap (hp s) v) by (intro v; apply snap_ext; intros j _; apply Hb).
    destruct HR as [H1 H2 H3 H4 H5 H6 H7]. constructor; cbn; try assumption.
    - intros k v Hk. destruct (H1 k v Hk) as (A & B & C & D & F & G). unfold entry_ok; cbn. rewrite Hs.
      do 5 (split; [assumption | ]). intros j Ej. destruct (Hb j) as (_ & B2 & B3).
      rewrite B2, B3. apply G, Ej.
    - intros k v Hk. destruct (H3 k v Hk) as [-> | (A & B & C & D)]; [left; reflexivity | right]. cbn. rewrite Hs.
      do 3 (split; [assumption | ]). intros j Ej. destruct (Hb j) as (_ & B2 & B3). rewrite B3. apply D, Ej. }
  destruct H as (A & B). destruct (IH s1 cu A) as (C & D). split; [exact C | ]. rewrite <- B. exact D.
Qed.

Section WithPool.
Variable c : cfg.
Hypothesis Hlock : nolock c = false.
Hypothesis Hreal : c_svirt c = false.

Lemma lockfn : c_lockfn c = true.
Proof. unfold nolock in Hlock. destruct (c_lockfn c); [reflexivity | discriminate]. Qed.

Lemma alloc_ok : forall s cu o, Rok s cu -> store s o = SUnalloc -> tnovoid (cache s) o = false ->
  Rok (pool_alloc c s o) (upd cu o SEmpty) /\ same (store (pool_alloc c s o)) (upd (store s) o SEmpty).
Proof.
  intros s cu o HR Hu Hc. unfold pool_alloc. rewrite Hreal, lockfn.
  assert (Hn : tget (chg s) o = None).
  { destruct (tget (chg s) o) as [v |] eqn:E; [ | reflexivity].
    destruct (r_chg _ _ HR _ _ E) as (_ & _ & C & _). congruence. }
  split; [ | intro k; reflexivity].
  cbn [with_flock with_store chg]. unfold tdefault. unfold tvalue at 1. rewrite Hn.
  destruct HR as [H1 H2 H3 H4 H5 H6 H7]. constructor; cbn; try assumption.
  - intros k v H. rewrite tget_tput in H. unfold entry_ok, upd; cbn. rewrite (Z.eqb_sym k o).
    destruct (o =? k) eqn:E.
    + injection H as <-. do 3 (split; [discriminate | ]). split; [reflexivity | ]. split; [reflexivity | ].
      intros i Hi; discriminate.
    + destruct (H1 k v H) as (A & B & C & D & F & G). do 5 (split; [assumption | ]). exact G.
  - intros k H. rewrite tget_tput in H. unfold upd. rewrite (Z.eqb_sym k o).
    destruct (o =? k); [discriminate | ]. apply H2, H.
  - intros k v H. destruct (H3 k v H) as [-> | (A & B & C & D)]; [left; reflexivity | ].
    destruct (o =? k) eqn:E.
    + apply Z.eqb_eq in E; subst k. left. unfold tnovoid in Hc. rewrite H in Hc. destruct v; congruence.
    + right. cbn. rewrite tget_tput, (Z.eqb_sym k o), E. auto.
  - intros a b i Ha Hb. rewrite tget_tput in Ha, Hb.
    destruct (o =? a); [discriminate | ]. destruct (o =? b); [discriminate | ]. exact (H4 _ _ _ Ha Hb).
  - intros k. destruct (k =? o); [split; discriminate | apply H5].
  - apply nodup_tput, H6.
Qed.

(** ** One step *)
Lemma step_ok : forall s cu x r s', Rok s cu -> orderly s x -> step c s x = (r, s') ->
  exists cu', Rok s' cu' /\ tell (MkV cu (store s)) (x, r) (MkV cu' (store s')).
Proof.
  intros s cu x r s' HR Ho H.
  assert (Hun : forall m, store s' = m -> m = store s -> unchanged (MkV cu (store s)) (MkV cu (store s'))).
  { intros m E1 E2. split; intro o; cbn; [reflexivity | rewrite E1, E2; reflexivity]. }
  destruct x as [o | o v l | o f l | i f | os l | o | os fl co | w co | os | os | os | o].
  - cbn [step] in H. destruct (pool_get c s o) as [v s1] eqn:Eg.
    destruct (pool_get_ok c Hlock Hreal _ _ _ _ _ HR Eg) as (P1 & P2 & P3 & P4 & P5 & _).
    exists cu. destruct v as [| | | | z | z | i]; try congruence; injection H as <- <-;
      (split; [exact P1 | ]); cbn [tell cur]; (split; [rewrite <- P2; reflexivity | eapply Hun; [exact P3 | reflexivity]]).
  - destruct Ho as (Hp & Ha & Hl).
    destruct (set_ok c Hlock s cu o v l r s' HR Hp Ha Hl H) as (E & [((n & ->) & HR') | (-> & HR')]).
    + exists (upd cu o (given v)). split; [exact HR' | ]. cbn. split; [intro; reflexivity | ].
      intro k; rewrite E; reflexivity.
    + exists cu. split; [exact HR' | ]. cbn. eapply Hun; [exact E | reflexivity].
  - destruct (edit_ok c Hlock Hreal s cu o f l r s' HR Ho H) as (E & [((n & ->) & Hc & HR') | (-> & HR')]).
    + exists (upd cu o (edited f (cu o))). split; [exact HR' | ]. cbn. split; [exact Hc | ].
      split; [intro; reflexivity | ]. intro k; rewrite E; reflexivity.
    + exists cu. split; [exact HR' | ]. cbn. eapply Hun; [exact E | reflexivity].
  - destruct Ho.
  - cbn [step] in H. destruct (pool_lock c s os l) as [rr s1] eqn:El.
    destruct (pool_lock_ok c Hlock s cu os l rr s1 HR Ho El) as (A & B & _).
    exists cu. injection H as <- <-. split; [exact A | ]. cbn. eapply Hun; [exact B | reflexivity].
  - cbn [step] in H. injection H as <- <-. exists cu. split; [exact HR | ]. cbn.
    eapply Hun; reflexivity.
  - cbn [step] in H. destruct (pool_unlock s os fl co) as [rr s1] eqn:Eu.
    destruct Ho as (Hu & Hos).
    assert (Es : s' = s1) by (injection H as _ <-; reflexivity). subst s1.
    assert (Er : exists r', (OUnlock os fl co, r) = (OUnlock os fl co, r')) by (exists r; reflexivity).
    clear H. unfold pool_unlock in Eu.
    destruct fl.
    + (* commit *)
      set (w := match os with Some l => WNamed l | None => WAll end).
      assert (Hw : match w with WNamed l => named_ok s l | _ => True end).
      { unfold w. destruct os; [exact Hos | exact I]. }
      destruct (pool_commit s w co) as [n s2] eqn:Ec.
      destruct (commit_ok s cu HR w co n s2 Hu Hw Ec) as (A & B & C & D & _).
      assert (Hfin : Rok s' cu /\ store s' = store s2).
      { destruct (chg s) as [| e0 c0] eqn:Eg.
        - injection Eu as <- <-. unfold pool_commit in Ec. rewrite Eg in Ec. injection Ec as <- <-.
          split; [exact HR | reflexivity].
        - fold w in Eu. rewrite Ec in Eu. injection Eu as <- <-. split; [apply unlock_rest_ok; exact A | ].
          cbn. unfold driver_unlock. destruct (chg s2); reflexivity. }
      destruct Hfin as (HR' & Est). exists cu. split; [exact HR' | ].
      cbn [tell]. fold w. rewrite Est.
      destruct (co_start co && co_write co) eqn:Eco.
      * apply C, D; reflexivity.
      * destruct (Z_lt_ge_dec n 0) as [Hn | Hn].
        { split; [intro; reflexivity | ]. exact (B Hn). }
        specialize (C ltac:(lia)). destruct w as [| | l]; cbn in C |- *.
        { destruct C as (C1 & C2). split; [intro; reflexivity | ]. intros o; right; apply C2. }
        { exact C. }
        { destruct C as (C1 & C2). split; [intro; reflexivity | ]. intros o. cbn in *. rewrite C2.
          destruct (existsb (Z.eqb o) l); auto. }
    + (* leave *)
      exists cu. assert (Hfin : Rok s' cu /\ store s' = store s).
      { destruct (chg s) as [| e0 c0] eqn:Eg.
        - injection Eu as <- <-. auto.
        - rewrite <- Eg in Eu. injection Eu as <- <-. split; [apply unlock_rest_ok; exact HR | ].
          cbn. unfold driver_unlock. destruct (chg s); reflexivity. }
      destruct Hfin as (HR' & Est). split; [exact HR' | ]. cbn. eapply Hun; [exact Est | reflexivity].
    + (* discard *)
      exists (store s). assert (Hfin : Rok s' (store s) /\ store s' = store s).
      { destruct (chg s) as [| e0 c0] eqn:Eg.
        - injection Eu as <- <-. split; [ | reflexivity]. eapply R_same; [exact HR | ].
          intro o. symmetry. apply (r_none _ _ HR). rewrite Eg. reflexivity.
        - injection Eu as <- <-. split; [eapply discard_ok; exact HR | ].
          cbn. unfold driver_unlock. destruct (chg s); reflexivity. }
      destruct Hfin as (HR' & Est). split; [exact HR' | ]. cbn. rewrite Est. split; intro; reflexivity.
  - cbn [step] in H. destruct (pool_commit s w co) as [n s2] eqn:Ec. destruct Ho as (Hu & Hw).
    destruct (commit_ok s cu HR w co n s2 Hu Hw Ec) as (A & B & C & D & _).
    exists cu. injection H as <- <-. split; [exact A | ]. destruct (n <? 0) eqn:En.
    + apply Z.ltb_lt in En. cbn. split; [intro; reflexivity | exact (B En)].
    + apply Z.ltb_ge in En. cbn [tell]. exact (C En).
  - cbn [step] in H. injection H as <- <-. exists cu. split; [apply swap_ok; exact HR | ]. cbn.
    eapply Hun; [ | reflexivity]. unfold pool_swapout. destruct os; [destruct (c_noswap c) | ]; reflexivity.
  - cbn [step] in H. injection H as <- <-. exists cu.
    assert (Hp : Rok (pool_prefetch c s os) cu /\ store (pool_prefetch c s os) = store s).
    { unfold pool_prefetch. destruct (Nat.eqb (c_level c) 0); [auto | ].
      destruct os as [| o [| o2 os]]; [auto | | ].
      - destruct (negb (tnovoid (cache s) o) && negb (thas (chg s) o)); [ | auto].
        destruct (fetch s o) as [v s1] eqn:Ef.
        destruct (fetch_ok _ _ _ _ _ HR Ef) as (A & _ & _ & _ & B & _). cbn. auto.
      - set (todo := filter _ (o :: o2 :: os)). set (b := existsb _ todo).
        apply prefetch_all_ok; [exact Hlock | exact HR | apply NoDup_filter; exact Ho | ].
        intros k Hk. assert (Hk' := Hk). apply filter_In in Hk as (_ & Hf). unfold tvalue, thas in Hf.
        destruct (tget (chg s) k) as [v |] eqn:E; [right | left; reflexivity].
        rewrite andb_false_r in Hf. cbn in Hf. destruct v; try discriminate. split; [reflexivity | ].
        unfold b. apply existsb_exists. exists k. split; [exact Hk' | ]. unfold tvalue. rewrite E. reflexivity. }
    destruct Hp as (A & B). split; [exact A | ]. cbn. eapply Hun; [exact B | reflexivity].
  - cbn [step] in H. injection H as <- <-. destruct (finish_fin_ok os s cu HR) as (A & B).
    exists cu. split; [exact A | ]. cbn. eapply Hun; [exact B | reflexivity].
  - cbn [step] in H. injection H as <- <-. destruct Ho as (Ho1 & Ho2).
    destruct (alloc_ok s cu o HR Ho1 Ho2) as (A & B).
    exists (upd cu o SEmpty). split; [exact A | ]. cbn. split; [intro; reflexivity | exact B].
Qed.

Lemma run_ok : forall l s cu t s', Rok s cu -> orderly_run c s l -> run c s l = (t, s') ->
  exists cu', Rok s' cu' /\ tells (MkV cu (store s)) t (MkV cu' (store s')).
Proof.
  induction l as [| x l IH]; intros s cu t s' HR Ho H; cbn [run] in H.
  - injection H as <- <-. exists cu. split; [exact HR | ]. constructor. split; intro; reflexivity.
  - destruct (step c s x) as [r s1] eqn:Es. destruct (run c s1 l) as [t1 s2] eqn:Er.
    injection H as <- <-. cbn in Ho. rewrite Es in Ho. destruct Ho as (Ho1 & Ho2). cbn in Ho2.
    destruct (step_ok _ _ _ _ _ HR Ho1 Es) as (cu1 & HR1 & T1).
    destruct (IH s1 cu1 t1 s2 HR1 Ho2 Er) as (cu2 & HR2 & T2).
    exists cu2. split; [exact HR2 | ]. eapply tells_cons; [exact T1 | exact T2].
Qed.

End WithPool.

Lemma opened_R : forall m, fit m -> Rok (opened m) m.
Proof.
  intros m Hf. constructor; cbn; try discriminate; try reflexivity; try assumption; constructor.
Qed.

(** ** When the driver grants the lock *)
Section Granted.
Variable c : cfg.
Hypothesis Hlock : nolock c = false.
Hypothesis Hreal : c_svirt c = false.

Lemma lock_one : forall s o l, 0 < l -> fst (pool_lock c s [o] l) = 1.
Proof.
  intros s o l Hl. unfold pool_lock. rewrite Hlock. cbn [filter].
  destruct (negb (thas (chg s) o)); [ | reflexivity].
  replace (l <? 0) with false by lia. replace (l =? 0) with false by lia. reflexivity.
Qed.
Lemma lock_one_store : forall s o l, store (snd (pool_lock c s [o] l)) = store s.
Proof.
  intros s o l. unfold pool_lock. rewrite Hlock. cbn [filter].
  destruct (negb (thas (chg s) o)); [ | reflexivity].
  destruct (l <? 0); [reflexivity | ]. destruct (l =? 0); reflexivity.
Qed.

Lemma set_granted : forall s o v l, 0 < l -> fst (step c s (OSet o v l)) = RInt 1.
Proof.
  intros s o v l Hl. cbn [step].
  set (p := match v with SetVal w => (w, s) | _ => _ end). destruct p as [w s0].
  unfold set_oid_value. rewrite Hlock.
  set (s1 := modify_modified true w (modify_readonly false w s0)).
  pose proof (lock_one s1 o l Hl) as E. destruct (pool_lock c s1 [o] l) as [r s2]. cbn in E. subst r.
  reflexivity.
Qed.

Lemma locked_granted : forall s cu o l, Rok s cu -> allocated s o -> 0 < l ->
  fst (locked_value c s o l) <> None.
Proof.
  intros s cu o l HR Ha Hl. unfold locked_value. rewrite Hlock.
  destruct (tvalue (chg s) o) eqn:Ev; try discriminate.
  - pose proof (lock_one s o l Hl) as E. pose proof (lock_one_store s o l) as Es.
    destruct (pool_lock c s [o] l) as [r s1]. cbn [fst snd] in E, Es. subst r. cbn [Z.ltb Z.eqb Z.compare].
    set (s2 := with_chg (tput (chg s1) o VLock) s1).
    assert (Hg : tget (chg s2) o = Some VLock) by (cbn; rewrite tget_tput, Z.eqb_refl; reflexivity).
    assert (Hst : store s2 o = store s o) by (cbn; rewrite Es; reflexivity).
    clearbody s2. unfold pool_get, tnovoid, tvalue. rewrite Hg. cbn [is_lock].
    unfold allocated in Ha. unfold fetch. rewrite Hst.
    destruct (store s o); try discriminate; try congruence.
  - destruct (pool_get c s o); discriminate.
Qed.

Lemma edit_granted : forall s cu o f l, Rok s cu -> allocated s o -> 0 < l ->
  (cu o = SEmpty \/ exists z, cu o = STab z) ->
  fst (step c s (OEdit o f l)) = RInt 1.
Proof.
  intros s cu o f l HR Ha Hl Hv. pose proof (locked_granted s cu o l HR Ha Hl) as Hn.
  cbn [step]. unfold oid_edit. destruct (locked_value c s o l) as [rv s1] eqn:El. cbn [fst] in Hn.
  destruct (locked_value_ok c Hlock Hreal _ _ _ _ _ _ HR Ha El) as (HR1 & Est & Hw).
  destruct rv as [v |]; [ | congruence]. destruct Hw as (Esn & Eg & N1 & N2).
  destruct v as [| | | | z | z | i]; try congruence.
  - unfold init_oid_value. rewrite Hlock. cbn [chg].
    assert (Ht : thas (chg s1) o = true) by (apply thas_true; exists VEmpty; exact Eg).
    rewrite Ht. unfold tinit, tvalue. rewrite Eg. cbn beta iota.
    cbn [with_chg hp]. rewrite hset_same. reflexivity.
  - exfalso. cbn in Esn. destruct Hv as [E | (z & E)]; congruence.
  - exfalso. cbn in Esn. destruct Hv as [E | (z' & E)]; congruence.
  - exfalso. cbn in Esn. destruct Hv as [E | (z' & E)]; congruence.
  - destruct (r_chg _ _ HR1 _ _ Eg) as (_ & _ & _ & _ & _ & G).
    destruct (G i eq_refl) as (_ & Hro & _).
    cbn [modify_modified with_hp hp]. rewrite !hset_same. cbn [set_mod t_ro]. rewrite Hro. reflexivity.
Qed.
End Granted.

(** ** The driver's file lock *)
Lemma prefetch_flock : forall c b l s, flock (fold_left (prefetch_one c b) l s) = flock s.
Proof.
  intros c b; induction l as [| o l IH]; intros s; cbn [fold_left]; [reflexivity | ].
  rewrite IH. unfold prefetch_one.
  assert (Hf : flock (snd (fetch s o)) = flock s) by (unfold fetch; destruct (store s o); reflexivity).
  destruct (fetch s o) as [v s1]. cbn in Hf. destruct (nolock c); [exact Hf | ].
  destruct (b && tnovoid (chg s1) o); destruct v; exact Hf.
Qed.
Lemma finish_flock : forall l s, flock (pool_finish s l) = flock s.
Proof.
  unfold pool_finish. induction l as [| o l IH]; intros s; cbn [fold_left]; [reflexivity | ].
  rewrite IH. destruct (tvalue (chg s) o); try reflexivity. destruct (t_mod (hp s id)); reflexivity.
Qed.
Lemma get_flock : forall c s o, flock (snd (pool_get c s o)) = flock s.
Proof.
  intros c s o. unfold pool_get.
  assert (Hf : flock (snd (fetch s o)) = flock s) by (unfold fetch; destruct (store s o); reflexivity).
  destruct (fetch s o) as [f s1]. cbn in Hf.
  destruct (tnovoid (chg s) o).
  - destruct (is_lock (tvalue (chg s) o)); [ | reflexivity].
    destruct (is_lock (tvalue (chg s1) o)); destruct f; exact Hf.
  - destruct (_ && _); [reflexivity | ]. destruct (Nat.eqb (c_level c) 0); [exact Hf | ].
    destruct (c_svirt c); destruct f; exact Hf.
Qed.
Lemma lock_flock : forall c s os l, flock s = true -> flock (snd (pool_lock c s os l)) = true.
Proof.
  intros c s os l H. unfold pool_lock. destruct (nolock c); [exact H | ].
  destruct (filter _ os); [exact H | ]. destruct (l <? 0); [exact H | ]. destruct (l =? 0); [exact H | reflexivity].
Qed.
Lemma finish_all_nil : forall co h l t n t', finish_all co h l t = (n, t') -> t <> [] -> t' <> [].
Proof.
  intros co h l t n t' H Hn E. subst t'. destruct (finish_all_ok _ _ _ _ _ _ H) as (K & _).
  destruct t; [congruence | discriminate].
Qed.
Lemma commit_flock : forall s w co, flock (snd (pool_commit s w co)) = flock s.
Proof.
  intros s w co. unfold pool_commit. destruct (chg s) as [| e0 c0] eqn:Ec; [reflexivity | ].
  rewrite <- Ec. assert (Hne : chg s <> []) by congruence. clear Ec e0 c0.
  destruct (co_start co); [cbn [negb] | reflexivity].
  destruct (match w with WAll => _ | WFinished => _ | WNamed os => _ end) as [l h].
  assert (Hfin : forall s1 l, chg s1 <> [] -> flock (finish_commit co s1 l) = flock s1).
  { intros s1 l1 Hn. unfold finish_commit. destruct (finish_all co (hp s1) l1 (chg s1)) as [n t] eqn:E.
    pose proof (finish_all_nil _ _ _ _ _ _ E Hn) as Ht. destruct (Nat.eqb n 0); [reflexivity | ].
    unfold driver_unlock. cbn [with_chg chg]. destruct t as [| e t]; [congruence | ].
    destruct (co_unlock co <? 0); reflexivity. }
  destruct l as [| e l]; [cbn [snd]; rewrite Hfin; [reflexivity | exact Hne] | ].
  destruct (co_write co); [cbn [snd]; rewrite Hfin; [reflexivity | exact Hne] | reflexivity].
Qed.

Lemma flock_kept : forall c s x, flock s = true -> flock (snd (step c s x)) = false ->
  exists os co, x = OUnlock os Commit co.
Proof.
  intros c s x Hf H.
  assert (Hset : forall o v l s0, flock s0 = true -> flock (snd (set_oid_value c s0 o v l)) = true).
  { intros o v l s0 E. unfold set_oid_value.
    set (s1 := modify_modified true v (modify_readonly false v s0)).
    assert (E1 : flock s1 = true) by (unfold s1; destruct v; exact E).
    destruct (nolock c); [exact E1 | ].
    pose proof (lock_flock c s1 [o] l E1) as E2. destruct (pool_lock c s1 [o] l) as [r s2].
    destruct (r =? 0); exact E2. }
  assert (Hlv : forall o l, flock (snd (locked_value c s o l)) = true).
  { intros o l. unfold locked_value. pose proof (get_flock c s o) as G.
    destruct (nolock c); [destruct (pool_get c s o); cbn in *; congruence | ].
    pose proof (lock_flock c s [o] l Hf) as E2. destruct (pool_lock c s [o] l) as [r s2].
    destruct (tvalue (chg s) o); try exact Hf; [ | destruct (pool_get c s o); cbn in *; congruence].
    destruct (r <? 0); [exact E2 | ]. destruct (r =? 0); [exact E2 | ].
    pose proof (get_flock c (with_chg (tput (chg s2) o VLock) s2) o) as G2.
    destruct (pool_get c (with_chg (tput (chg s2) o VLock) s2) o) as [v s3]. cbn in G2, E2.
    destruct v; cbn; congruence. }
  destruct x as [o | o v l | o f l | i f | os l | o | os fl co | w co | os | os | os | o]; cbn [step] in H.
  - pose proof (get_flock c s o) as G. destruct (pool_get c s o) as [v s1]. destruct v; cbn in *; congruence.
  - exfalso. destruct v as [w | b | i].
    + pose proof (Hset o w l s Hf) as G. destruct (set_oid_value c s o w l). cbn in *; congruence.
    + match type of H with context [set_oid_value c ?S o ?W l] =>
        pose proof (Hset o W l S Hf) as G; destruct (set_oid_value c S o W l) end. cbn in *; congruence.
    + pose proof (Hset o (VTab i) l s Hf) as G. destruct (set_oid_value c s o (VTab i) l). cbn in *; congruence.
  - exfalso. unfold oid_edit in H. specialize (Hlv o l). destruct (locked_value c s o l) as [rv s1]. cbn in Hlv.
    destruct rv as [v |]; [ | cbn in H; congruence].
    assert (Hch : forall v2 s2, flock s2 = true ->
      flock (snd (match v2 with VTab i => if t_ro (hp s2 i) then (false, s2)
        else (true, with_hp (hset (hp s2) i (set_mod true (set_body (f (t_body (hp s2 i))) (hp s2 i)))) s2)
        | _ => (false, s2) end)) = true).
    { intros v2 s2 E. destruct v2; try exact E. destruct (t_ro (hp s2 id)); exact E. }
    assert (Hin : forall s2 v2, flock s2 = true -> flock (snd (init_oid_value c s2 o v2)) = true).
    { intros s2 v2 E. unfold init_oid_value. pose proof (get_flock c s2 o) as G. destruct (nolock c).
      - destruct (tinit (cache s2) o v2) as [b t]. destruct b; [exact E | ]. congruence.
      - destruct (thas (chg s2) o); [ | exact E].
        destruct (tinit (chg s2) o v2) as [b t]. destruct b; [exact E | ]. congruence. }
    assert (Hnew : flock (snd (let (v, s3) := init_oid_value c
         (MkS (hset (hp s1) (nxt s1) (MkO 0 true false false)) (S (nxt s1)) (cache s1) (chg s1) (store s1) (flock s1))
         o (VTab (nxt s1)) in
       match v with VTab i => if t_ro (hp s3 i) then (false, s3)
        else (true, with_hp (hset (hp s3) i (set_mod true (set_body (f (t_body (hp s3 i))) (hp s3 i)))) s3)
        | _ => (false, s3) end)) = true).
    { match goal with |- context [init_oid_value c ?S o ?V] =>
        pose proof (Hin S V Hlv) as G; destruct (init_oid_value c S o V) as [v3 s3] end.
      cbn in G. apply Hch, G. }
    destruct v as [| | | | z | z | i].
    1,2,4: match type of Hnew with flock (snd ?X) = true =>
             match type of H with context [let (_, _) := ?Y in _] => change Y with X in H end;
             destruct X as [b sx]; cbn in *; congruence end.
    1,2,3: cbn in H; congruence.
    match type of H with context [t_ro ?X] => destruct (t_ro X) end; cbn in H; congruence.
  - destruct (t_ro (hp s i)); cbn in H; congruence.
  - exfalso. pose proof (lock_flock c s os l Hf) as G. destruct (pool_lock c s os l). cbn in *; congruence.
  - cbn in H; congruence.
  - destruct fl; [exists os, co; reflexivity | exfalso | exfalso]; unfold pool_unlock in H;
      (destruct (chg s) as [| e0 c0] eqn:Ec; [cbn in H; congruence | ]); unfold driver_unlock in H;
      rewrite Ec in H; cbn in H; try congruence.
  - exfalso. pose proof (commit_flock s w co) as G. destruct (pool_commit s w co). cbn in *; congruence.
  - exfalso. unfold pool_swapout in H. destruct os; [destruct (c_noswap c) | ]; cbn in H; congruence.
  - exfalso. unfold pool_prefetch in H. destruct (Nat.eqb (c_level c) 0); [cbn in H; congruence | ].
    destruct os as [| o [| o2 os]]; [cbn in H; congruence | | ].
    + cbn in H. unfold fetch in H. destruct (_ && _) in H; [ | cbn in H; congruence].
      destruct (store s o); cbn in H; congruence.
    + cbn [snd] in H. rewrite prefetch_flock in H. congruence.
  - exfalso. cbn [snd] in H. rewrite finish_flock in H. congruence.
  - exfalso. cbn [snd] in H. unfold pool_alloc in H. destruct (c_svirt c); [cbn in H; congruence | ].
    destruct (c_lockfn c); cbn in H; congruence.
Qed.

(** Locking, setting, editing, swapping out, fetching ahead and allocating keep
    the pool's tables as the program expects. *)

From Coq Require Import List ZArith Bool Lia.
Import ListNotations.
From Verif Require Import PoolCacheModel PoolCacheSpec PoolCacheProofs.
Local Open Scope Z_scope.

Section WithPool.
Variable c : cfg.
Hypothesis Hlock : nolock c = false.
Hypothesis Hreal : c_svirt c = false.

(** ** Locking *)
Lemma R_lock : forall s cu l, Rok s cu ->
  (forall o, In o l -> tget (chg s) o = None /\ store s o <> SUnalloc) ->
  Rok (with_flock true (with_chg (fold_left (fun t o => tput t o VLock) l (chg s))
        (with_cache (fold_left (fun t o => treplace t o VVoid) l (cache s)) s))) cu.
Proof.
  intros s cu l [H1 H2 H3 H4 H5 H6 H7] Hl. constructor; cbn; try assumption.
  - intros o v H. rewrite fold_put in H. destruct (existsb (Z.eqb o) l) eqn:E.
    + injection H as <-. apply existsb_In in E. destruct (Hl o E) as (A & B).
      unfold entry_ok; cbn. split; [discriminate | ]. split; [discriminate | ].
      split; [exact B | ]. split; [intros _; apply H2, A | ]. split; [congruence | ].
      intros i Hi; discriminate.
    + exact (H1 o v H).
  - intros o H. rewrite fold_put in H. destruct (existsb (Z.eqb o) l); [discriminate | ].
    apply H2, H.
  - intros o v H. rewrite fold_replace in H.
    destruct (tget (cache s) o) as [w |] eqn:Ew; [ | discriminate].
    destruct (existsb (Z.eqb o) l) eqn:E; injection H as <-; [left; reflexivity | ].
    destruct (H3 o w Ew) as [-> | (A & B & C & D)]; [left; reflexivity | right].
    cbn. rewrite fold_put, E. auto.
  - intros o o' i H H'. rewrite fold_put in H, H'.
    destruct (existsb (Z.eqb o) l); [discriminate | ].
    destruct (existsb (Z.eqb o') l); [discriminate | ]. exact (H4 o o' i H H').
  - apply fold_put_nodup, H6.
  - rewrite fold_replace_keys. exact H7.
Qed.

Lemma thas_false : forall t o, thas t o = false <-> tget t o = None.
Proof. intros t o; unfold thas; destruct (tget t o); split; congruence. Qed.
Lemma thas_true : forall t o, thas t o = true <-> exists v, tget t o = Some v.
Proof.
  intros t o; unfold thas; destruct (tget t o) as [v |]; split; try congruence.
  - intros _; exists v; reflexivity.
  - intros (v & E); discriminate.
Qed.

Lemma pool_lock_ok : forall s cu os l r s', Rok s cu ->
  (forall o, In o os -> store s o <> SUnalloc) ->
  pool_lock c s os l = (r, s') ->
  Rok s' cu /\ store s' = store s /\ hp s' = hp s /\ nxt s' = nxt s /\
  (r = 0 \/ r < 0 -> s' = s) /\
  (0 < r -> forall o, In o os -> thas (chg s') o = true) /\
  (forall o v, tget (chg s) o = Some v -> tget (chg s') o = Some v) /\
  (forall o v, tget (chg s') o = Some v -> tget (chg s) o = Some v \/ v = VLock) /\
  (0 <= l -> 0 <= r).
Proof.
  intros s cu os l r s' HR Ha H. unfold pool_lock in H. rewrite Hlock in H.
  set (needy := filter _ os) in H.
  assert (Hn : forall o, In o needy <-> In o os /\ tget (chg s) o = None).
  { intro o. unfold needy. rewrite filter_In. rewrite negb_true_iff, thas_false. reflexivity. }
  destruct needy as [| n0 nl] eqn:En.
  - injection H as <- <-. split; [exact HR | ]. do 3 (split; [reflexivity | ]).
    split; [reflexivity | ]. split.
    { intros _ o Ho. destruct (thas (chg s) o) eqn:E; [reflexivity | ].
      apply thas_false in E. exfalso. apply (proj2 (Hn o)). split; assumption. }
    split; [auto | ]. split; [auto | lia].
  - destruct (l <? 0) eqn:El.
    { injection H as <- <-. apply Z.ltb_lt in El. split; [exact HR | ]. do 3 (split; [reflexivity | ]).
      split; [reflexivity | ]. split; [lia | ]. split; [auto | ]. split; [auto | lia]. }
    apply Z.ltb_ge in El. destruct (l =? 0) eqn:El0.
    { injection H as <- <-. split; [exact HR | ]. do 3 (split; [reflexivity | ]).
      split; [reflexivity | ]. split; [lia | ]. split; [auto | ]. split; [auto | lia]. }
    apply Z.eqb_neq in El0. injection H as Er Es.
    assert (Hs' : s' = with_flock true (with_chg (fold_left (fun t o => tput t o VLock) (n0 :: nl) (chg s))
        (with_cache (fold_left (fun t o => treplace t o VVoid) (n0 :: nl) (cache s)) s))).
    { rewrite <- Es. reflexivity. }
    assert (Hr : 0 < r). { subst r. destruct os as [| a [| b os]]; lia. }
    split.
    { rewrite Hs'. apply R_lock; [exact HR | ]. intros o Ho.
      apply Hn in Ho as [Ho E]. split; [exact E | apply Ha, Ho]. }
    rewrite Hs'. do 3 (split; [reflexivity | ]).
    split; [intros [X | X]; exfalso; lia | ].
    assert (Hg : forall o, tget (chg (with_flock true (with_chg (fold_left (fun t o => tput t o VLock) (n0 :: nl) (chg s))
        (with_cache (fold_left (fun t o => treplace t o VVoid) (n0 :: nl) (cache s)) s)))) o =
        if existsb (Z.eqb o) (n0 :: nl) then Some VLock else tget (chg s) o) by (intro; apply fold_put).
    split; [ | split; [ | split; [ | lia]]].
    + intros _ o Ho. apply thas_true. rewrite Hg.
      destruct (existsb (Z.eqb o) (n0 :: nl)) eqn:E; [exists VLock; reflexivity | ].
      destruct (tget (chg s) o) as [v |] eqn:E'; [exists v; reflexivity | ].
      exfalso. assert (Hin : In o (n0 :: nl)) by (apply Hn; auto).
      apply existsb_In in Hin. congruence.
    + intros o v Hv. rewrite Hg. destruct (existsb (Z.eqb o) (n0 :: nl)) eqn:E; [ | exact Hv].
      apply existsb_In, Hn in E as [_ E]. congruence.
    + intros o v Hv. rewrite Hg in Hv. destruct (existsb (Z.eqb o) (n0 :: nl)); [right; congruence | left; exact Hv].
Qed.

(** ** Setting *)
Lemma set_ok : forall s cu o v l r s', Rok s cu -> plain v -> allocated s o -> 0 <= l ->
  step c s (OSet o v l) = (r, s') ->
  store s' = store s /\
  ((exists n, r = RInt n) /\ Rok s' (upd cu o (given v)) \/ r = RErr /\ Rok s' cu).
Proof.
  intros s cu o v l r s' HR Hp Ha Hl H. cbn [step] in H.
  assert (Hpre : exists w s0, (match v with
       | SetVal w => (w, s)
       | SetRaw i => (VTab i, s)
       | SetTab b => (VTab (nxt s), MkS (hset (hp s) (nxt s) (MkO b true false false)) (S (nxt s))
                                         (cache s) (chg s) (store s) (flock s))
       end) = (w, s0) /\ Rok s0 cu /\ store s0 = store s /\
       modify_modified true w (modify_readonly false w s0) = with_hp (hp (modify_modified true w (modify_readonly false w s0))) s0 /\
       snap (hp (modify_modified true w (modify_readonly false w s0))) w = given v /\
       w <> VVoid /\ w <> VUnalloc /\ w <> VLock /\
       (forall i, w = VTab i -> (i < nxt s0)%nat /\
          (forall o', tget (chg s0) o' <> Some w) /\ (forall o', tget (cache s0) o' <> Some w) /\
          let h := hp (modify_modified true w (modify_readonly false w s0)) in
          t_ro (h i) = false /\ t_mod (h i) = true)).
  { destruct v as [w | b | i]; cbn in Hp; [ | | contradiction].
    - exists w, s. destruct w; try contradiction; cbn.
      all: split; [reflexivity | ]; split; [exact HR | ]; split; [reflexivity | ];
        split; [destruct s; reflexivity | ]; split; [reflexivity | ];
        split; [discriminate | ]; split; [discriminate | ]; split; [discriminate | ];
        intros i Hi; discriminate.
    - exists (VTab (nxt s)), (with_new (MkO b true false false) s).
      split; [reflexivity | ]. split; [apply R_new, HR | ]. split; [reflexivity | ].
      split; [reflexivity | ]. split.
      { cbn. rewrite !hset_same. cbn. reflexivity. }
      split; [discriminate | ]. split; [discriminate | ]. split; [discriminate | ].
      intros i Hi. injection Hi as <-. split; [cbn; lia | ]. split; [ | split].
      + intros o' Ho. destruct (r_chg _ _ HR _ _ Ho) as (_ & _ & _ & _ & _ & G).
        destruct (G _ eq_refl) as (Hlt & _). lia.
      + intros o' Ho. destruct (r_cache _ _ HR _ _ Ho) as [E' | (_ & _ & _ & G)]; [discriminate | ].
        destruct (G _ eq_refl) as (Hlt & _). lia.
      + cbn. rewrite !hset_same. split; reflexivity. }
  destruct Hpre as (w & s0 & Epre & HR0 & Est & Emod & Esn & N1 & N2 & N3 & Hw).
  rewrite Epre in H. clear Epre. unfold set_oid_value in H. rewrite Hlock in H.
  set (s0' := modify_modified true w (modify_readonly false w s0)) in *.
  assert (HR0' : Rok s0' cu).
  { unfold s0'. clear - HR0 Hw. destruct w as [| | | | z | z | i]; try exact HR0.
    - destruct (Hw i eq_refl) as (_ & X1 & X2 & _).
      cbn [modify_modified modify_readonly with_hp hp].
      pose proof (R_bits s0 cu i (set_ro false (hp s0 i)) HR0 X1 X2) as HRa.
      pose proof (R_bits _ cu i (set_mod true (hset (hp s0) i (set_ro false (hp s0 i)) i)) HRa X1 X2) as HRb.
      exact HRb. }
  assert (Hsame : chg s0' = chg s0 /\ cache s0' = cache s0 /\ nxt s0' = nxt s0 /\ store s0' = store s0).
  { rewrite Emod. repeat split. }
  destruct Hsame as (Ec & Ea & En & Es').
  destruct (pool_lock c s0' [o] l) as [rr s1] eqn:El.
  assert (Hall : forall k, In k [o] -> store s0' k <> SUnalloc).
  { intros k [<- | []]. rewrite Es', Est. exact Ha. }
  destruct (pool_lock_ok _ _ _ _ _ _ HR0' Hall El) as (HR1 & Q1 & Q2 & Q3 & Q4 & Q5 & Q6 & Q7 & Q8).
  destruct (rr =? 0) eqn:Err.
  - injection H as <- <-. cbn. split; [congruence | ]. right. split; [reflexivity | exact HR1].
  - apply Z.eqb_neq in Err. injection H as <- <-. cbn. split; [congruence | ]. left.
    split; [exists 1; reflexivity | ]. rewrite <- Esn.
    replace (hp s0') with (hp s1) by exact Q2.
    specialize (Q8 Hl).
    apply R_put; try assumption.
    + rewrite Q1, Es', Est. exact Ha.
    + intros u Hu. assert (Ht : thas (chg s1) o = true) by (apply Q5; [lia | left; reflexivity]).
      apply thas_true in Ht as (x & Hx). exact (cache_locked _ _ _ _ _ HR1 Hx Hu).
    + intros i Hi. destruct (Hw i Hi) as (X0 & X1 & X2 & X3 & X4).
      rewrite Q3, En, Q2. split; [exact X0 | ]. split; [exact X3 | ].
      split; [intro Hm; fold s0' in X4; congruence | ].
      intros o' Ho'. destruct (Q7 _ _ Ho') as [Hx | Hx]; [ | congruence].
      rewrite Ec in Hx. exact (X1 _ Hx).
Qed.

(** ** Editing *)
Lemma locked_value_ok : forall s cu o l r s', Rok s cu -> allocated s o ->
  locked_value c s o l = (r, s') ->
  Rok s' cu /\ store s' = store s /\
  match r with
  | None => True
  | Some v => snap (hp s') v = cu o /\ tget (chg s') o = Some v /\ v <> VVoid /\ v <> VLock
  end.
Proof.
  intros s cu o l r s' HR Ha H. unfold locked_value in H. rewrite Hlock in H.
  unfold tvalue in H. destruct (tget (chg s) o) as [w |] eqn:E.
  - pose proof (r_chg _ _ HR _ _ E) as (A & B & C & D & F & G).
    assert (Ht : thas (chg s) o = true) by (apply thas_true; exists w; exact E).
    destruct w as [| | | | z | z | i]; try congruence.
    all: try (injection H as <- <-; split; [exact HR | ]; split; [reflexivity | ];
      split; [symmetry; apply F; congruence | ]; split; [exact E | ]; split; congruence).
    destruct (pool_get c s o) as [v s1] eqn:Eg. injection H as <- <-.
    destruct (pool_get_ok c Hlock Hreal _ _ _ _ _ HR Eg) as (P1 & P2 & P3 & P4 & P5 & P6 & P7).
    split; [exact P1 | ]. split; [exact P3 | ]. split; [exact P2 | ].
    split; [apply P6, Ht | ]. split; assumption.
  - destruct (pool_lock c s [o] l) as [rr s1] eqn:El.
    assert (Hall : forall k, In k [o] -> store s k <> SUnalloc) by (intros k [<- | []]; exact Ha).
    destruct (pool_lock_ok _ _ _ _ _ _ HR Hall El) as (HR1 & Q1 & Q2 & Q3 & Q4 & Q5 & Q6 & Q7 & Q8).
    destruct (rr <? 0) eqn:E1; [injection H as <- <-; auto | ].
    destruct (rr =? 0) eqn:E2; [injection H as <- <-; auto | ].
    apply Z.ltb_ge in E1. apply Z.eqb_neq in E2.
    assert (Ht : thas (chg s1) o = true) by (apply Q5; [lia | left; reflexivity]).
    apply thas_true in Ht as (x & Hx).
    assert (x = VLock) by (destruct (Q7 _ _ Hx); congruence). subst x.
    assert (Hput : forall t k v, tget t k = Some v -> tput t k v = t).
    { clear. induction t as [| [k' v'] t IH]; intros k v H; cbn in *; [discriminate | ].
      destruct (k' =? k); [congruence | ]. rewrite IH by exact H. reflexivity. }
    rewrite (Hput _ _ _ Hx) in H.
    replace (with_chg (chg s1) s1) with s1 in H by (destruct s1; reflexivity).
    destruct (pool_get c s1 o) as [v s2] eqn:Eg.
    destruct (pool_get_ok c Hlock Hreal _ _ _ _ _ HR1 Eg) as (P1 & P2 & P3 & P4 & P5 & P6 & P7).
    assert (Ht : thas (chg s1) o = true) by (apply thas_true; exists VLock; exact Hx).
    assert (HH : Rok s2 cu /\ store s2 = store s) by (split; [exact P1 | congruence]).
    destruct HH as (HH1 & HH2).
    destruct v; injection H as <- <-; split; try assumption; split; try assumption; try exact I.
    all: split; [exact P2 | ]; split; [apply P6, Ht | ]; split; assumption.
Qed.

(** A change to a table that the changes hold. *)
Lemma R_change : forall s cu o i z, Rok s cu -> tget (chg s) o = Some (VTab i) ->
  Rok (with_hp (hset (hp s) i (set_mod true (set_body z (hp s i)))) s) (upd cu o (STab z)).
Proof.
  intros s cu o i z [H1 H2 H3 H4 H5 H6 H7] Ho.
  destruct (H1 _ _ Ho) as (_ & _ & Hal & _ & _ & Gi). destruct (Gi i eq_refl) as (Li & Ri & _).
  constructor; cbn; try assumption.
  - intros o' v H. destruct (H1 o' v H) as (A & B & C & D & F & G). unfold entry_ok, upd; cbn.
    destruct (o' =? o) eqn:E.
    + apply Z.eqb_eq in E; subst o'. assert (v = VTab i) by congruence. subst v. cbn.
      rewrite hset_same. cbn. split; [discriminate | ]. split; [discriminate | ]. split; [exact C | ].
      split; [discriminate | ]. split; [reflexivity | ]. intros j Ej. injection Ej as <-.
      rewrite hset_same. cbn. split; [exact Li | ]. split; [exact Ri | discriminate].
    + assert (Hj : forall j, v = VTab j -> j <> i).
      { intros j -> ->. apply Z.eqb_neq in E. apply E. exact (H4 _ _ _ H Ho). }
      assert (Es : snap (hset (hp s) i (set_mod true (set_body z (hp s i)))) v = snap (hp s) v).
      { apply snap_ext. intros j Ej. rewrite hset_other by (apply Hj; exact Ej). reflexivity. }
      rewrite Es. do 5 (split; [assumption | ]). intros j Ej.
      rewrite hset_other by (apply Hj; exact Ej). apply G, Ej.
  - intros o' H. unfold upd. destruct (o' =? o) eqn:E; [ | apply H2, H].
    apply Z.eqb_eq in E; subst; congruence.
  - intros o' v H. destruct (H3 o' v H) as [-> | (A & B & C & D)]; [left; reflexivity | right]. cbn.
    assert (Hj : forall j, v = VTab j -> j <> i).
    { intros j -> ->. destruct (D i eq_refl) as (_ & X). congruence. }
    split; [ | split; [exact B | split; [exact C | ]]].
    + rewrite <- A. apply snap_ext. intros j Ej. rewrite hset_other by (apply Hj; exact Ej). reflexivity.
    + intros j Ej. rewrite hset_other by (apply Hj; exact Ej). apply D, Ej.
Qed.

Lemma edit_ok : forall s cu o f l r s', Rok s cu -> allocated s o ->
  step c s (OEdit o f l) = (r, s') ->
  store s' = store s /\
  ((exists n, r = RInt n) /\ (cu o = SEmpty \/ exists z, cu o = STab z) /\
     Rok s' (upd cu o (edited f (cu o))) \/
   r = RErr /\ Rok s' cu).
Proof.
  intros s cu o f l r s' HR Ha H. cbn [step] in H. unfold oid_edit in H.
  destruct (locked_value c s o l) as [rv s1] eqn:El.
  destruct (locked_value_ok _ _ _ _ _ _ HR Ha El) as (HR1 & Est & Hv).
  destruct rv as [v |]; [ | injection H as <- <-; split; [exact Est | right; auto]].
  destruct Hv as (Esn & Eg & N1 & N2).
  destruct v as [| | | | z | z | i]; try congruence.
  - (* no value yet *)
    cbn in Esn. unfold init_oid_value in H. rewrite Hlock in H.
    change (MkS (hset (hp s1) (nxt s1) (MkO 0 true false false)) (S (nxt s1))
                  (cache s1) (chg s1) (store s1) (flock s1)) with (with_new (MkO 0 true false false) s1) in H.
    set (s2 := with_new (MkO 0 true false false) s1) in *.
    assert (HR2 : Rok s2 cu) by (apply R_new, HR1).
    change (thas (chg s2) o) with (thas (chg s1) o) in H.
    assert (Ht : thas (chg s1) o = true) by (apply thas_true; exists VEmpty; exact Eg).
    rewrite Ht in H. unfold tinit in H. change (chg s2) with (chg s1) in H.
    unfold tvalue in H. rewrite Eg in H. cbn beta iota in H.
    set (s3 := with_chg (tput (chg s1) o (VTab (nxt s1))) s2) in *.
    assert (HR3 : Rok s3 (upd cu o (STab 0))).
    { replace (STab 0) with (snap (hp s2) (VTab (nxt s1))) by (cbn; rewrite hset_same; reflexivity).
      apply (R_put s2 cu o (VTab (nxt s1)) HR2); try discriminate.
      - change (store s2 o) with (store s1 o). rewrite Est. exact Ha.
      - intros w Hw. exact (cache_locked _ _ _ _ _ HR1 Eg Hw).
      - intros i Hi. injection Hi as <-. split; [cbn; lia | ]. cbn. rewrite hset_same. cbn.
        split; [reflexivity | ]. split; [discriminate | ].
        intros o' Ho'. destruct (r_chg _ _ HR1 _ _ Ho') as (_ & _ & _ & _ & _ & G).
        destruct (G _ eq_refl) as (Hlt & _). lia. }
    assert (Hro : t_ro (hp s3 (nxt s1)) = false) by (cbn; rewrite hset_same; reflexivity).
    assert (Hb : t_body (hp s3 (nxt s1)) = 0) by (cbn; rewrite hset_same; reflexivity).
    assert (Est3 : store s3 = store s) by exact Est.
    assert (Eg3 : tget (chg s3) o = Some (VTab (nxt s1)))
      by (cbn; rewrite tget_tput, Z.eqb_refl; reflexivity).
    rewrite Hro, Hb in H. clearbody s3. injection H as <- <-. split; [exact Est3 | ]. left.
    split; [exists 1; reflexivity | ]. split; [left; symmetry; exact Esn | ].
    eapply R_same; [apply (R_change s3 (upd cu o (STab 0)) o (nxt s1) (f 0) HR3) | ].
    + exact Eg3.
    + intros k. unfold upd. rewrite <- Esn. cbn. destruct (k =? o); reflexivity.
  - injection H as <- <-. split; [exact Est | right; auto].
  - injection H as <- <-. split; [exact Est | right; auto].
  - injection H as <- <-. split; [exact Est | right; auto].
  - (* a table *)
    cbn in Esn. destruct (r_chg _ _ HR1 _ _ Eg) as (_ & _ & _ & _ & _ & G).
    destruct (G i eq_refl) as (Hlt & Hro & _).
    cbn [modify_modified with_hp hp] in H. rewrite !hset_same in H.
    cbn [set_mod t_ro] in H. rewrite Hro in H. cbn [set_mod t_body] in H.
    injection H as <- <-. split; [exact Est | ]. left.
    split; [exists 1; reflexivity | ]. split; [right; exists (t_body (hp s1 i)); congruence | ].
    rewrite <- Esn. cbn [edited].
    pose proof (R_change s1 cu o i (f (t_body (hp s1 i))) HR1 Eg) as HR2.
    assert (Hh : forall j, hset (hset (hp s1) i (set_mod true (hp s1 i))) i
              (set_mod true (set_body (f (t_body (hp s1 i))) (set_mod true (hp s1 i)))) j =
              hset (hp s1) i (set_mod true (set_body (f (t_body (hp s1 i))) (hp s1 i))) j).
    { intro j. unfold hset. destruct (Nat.eqb j i); reflexivity. }
    revert HR2. generalize (upd cu o (STab (f (t_body (hp s1 i))))). intros cu' HR2.
    clear - HR2 Hh. destruct HR2 as [Q1 Q2 Q3 Q4 Q5 Q6 Q7]. constructor; cbn in *; try assumption.
    + intros o' v Hv. destruct (Q1 o' v Hv) as (U1 & U2 & U3 & U4 & U5 & U6).
      unfold entry_ok; cbn in *. rewrite (snap_ext _ _ v (fun j _ => f_equal t_body (Hh j))).
      do 5 (split; [assumption | ]). intros j Ej. rewrite Hh. apply U6, Ej.
    + intros o' v Hv. destruct (Q3 o' v Hv) as [-> | (U1 & U2 & U3 & U4)]; [left; reflexivity | right].
      cbn in *. rewrite (snap_ext _ _ v (fun j _ => f_equal t_body (Hh j))).
      do 3 (split; [assumption | ]). intros j Ej. rewrite Hh. apply U4, Ej.
Qed.

(** ** Swapping out *)
Lemma R_cache_less : forall s cu t, Rok s cu -> NoDup (map fst t) ->
  (forall o v, tget t o = Some v -> v = VVoid \/ tget (cache s) o = Some v) ->
  Rok (with_cache t s) cu.
Proof.
  intros s cu t [H1 H2 H3 H4 H5 H6 H7] ND Ht. constructor; cbn; try assumption.
  intros o v H. destruct (Ht o v H) as [-> | H']; [left; reflexivity | ]. exact (H3 o v H').
Qed.

Lemma swap_ok : forall s cu os, Rok s cu -> Rok (pool_swapout c s os) cu.
Proof.
  intros s cu os HR. unfold pool_swapout. destruct os as [l |].
  - destruct (c_noswap c); [exact HR | ].
    set (t := fold_left _ l (cache s)).
    assert (ND : NoDup (map fst t)) by (unfold t; rewrite fold_replace_keys; apply (r_kcache _ _ HR)).
    assert (Ht : forall o v, tget t o = Some v -> v = VVoid \/ tget (cache s) o = Some v).
    { intros o v H. unfold t in H. rewrite fold_replace in H.
      destruct (tget (cache s) o) as [w |]; [ | discriminate].
      destruct (existsb (Z.eqb o) l); injection H as <-; auto. }
    assert (Hd : Rok (with_cache (tdevoid t) s) cu).
    { apply R_cache_less; [exact HR | apply nodup_filter; exact ND | ].
      intros o v H. rewrite tget_tdevoid in H by exact ND.
      destruct (tget t o) as [w |] eqn:E; [ | discriminate]. destruct (is_void w); [discriminate | ].
      injection H as ->. apply Ht, E. }
    destruct l as [| a [| b l]]; [exact Hd | | exact Hd].
    apply R_cache_less; assumption.
  - apply R_cache_less; [exact HR | constructor | ]. intros o v H; discriminate.
Qed.

(** ** Fetching ahead *)
Lemma prefetch_one_ok : forall b s cu o, Rok s cu ->
  (tget (chg s) o = None \/ tget (chg s) o = Some VLock /\ b = true) ->
  Rok (prefetch_one c b s o) cu /\ store (prefetch_one c b s o) = store s /\
  (forall o', o' <> o -> tget (chg (prefetch_one c b s o)) o' = tget (chg s) o').
Proof.
  intros b s cu o HR Ho. unfold prefetch_one. destruct (fetch s o) as [f s1] eqn:Ef.
  destruct (fetch_ok _ _ _ _ _ HR Ef) as (HR1 & Es & Ec & Eg & Et & _ & N1 & N2 & Hn).
  rewrite Hlock.
  destruct Ho as [Ho | (Ho & ->)].
  - assert (E : tnovoid (chg s1) o = false) by (unfold tnovoid; rewrite Eg, Ho; reflexivity).
    rewrite E, andb_false_r.
    assert (HRm : Rok (modify_readonly true f s1) cu).
    { destruct f; try exact HR1. destruct (Hn id eq_refl) as (_ & _ & _ & X1 & X2).
      cbn. apply R_bits; [exact HR1 | rewrite Eg; exact X1 | rewrite Ec; exact X2]. }
    assert (Hsn : snap (hp (modify_readonly true f s1)) f = store s o).
    { rewrite <- Es. destruct f; try reflexivity. cbn. rewrite hset_same. reflexivity. }
    assert (Hsm : chg (modify_readonly true f s1) = chg s1 /\ cache (modify_readonly true f s1) = cache s1 /\
                  store (modify_readonly true f s1) = store s1 /\ nxt (modify_readonly true f s1) = nxt s1).
    { destruct f; repeat split. }
    destruct Hsm as (M1 & M2 & M3 & M4).
    assert (Hro : forall i, f = VTab i -> (i < nxt s1)%nat /\ t_ro (hp (modify_readonly true f s1) i) = true).
    { intros i ->. split; [apply (Hn i eq_refl) | ]. cbn. rewrite hset_same. reflexivity. }
    split; [ | split].
    + destruct HRm as [Q1 Q2 Q3 Q4 Q5 Q6 Q7]. constructor; cbn; try assumption.
      * intros o' v Hv. rewrite tget_tput in Hv. destruct (o =? o') eqn:Eo.
        { apply Z.eqb_eq in Eo; subst o'. injection Hv as <-. right. cbn.
          rewrite M3, M1, M4, Et, Eg. split; [exact Hsn | ]. split; [exact N2 | ]. split; [exact Ho | exact Hro]. }
        rewrite <- M2 in Hv. exact (Q3 o' v Hv).
      * apply nodup_tput. rewrite <- M2. exact Q7.
    + cbn. congruence.
    + intros o' Hne. cbn. rewrite M1, Eg. reflexivity.
  - assert (E : tnovoid (chg s1) o = true) by (unfold tnovoid; rewrite Eg, Ho; reflexivity).
    rewrite E. cbn [andb].
    destruct (r_chg _ _ HR _ _ Ho) as (_ & _ & C & D & _ & _).
    assert (Nu : f <> VUnalloc) by (intros ->; cbn in Es; congruence).
    assert (Hrp : treplace (chg s1) o f = tput (chg s1) o f \/ True) by auto.
    assert (HRm : Rok (modify_readonly false f s1) cu).
    { destruct f; try exact HR1. destruct (Hn id eq_refl) as (_ & _ & _ & X1 & X2).
      cbn. apply R_bits; [exact HR1 | rewrite Eg; exact X1 | rewrite Ec; exact X2]. }
    assert (Hsn : snap (hp (modify_readonly false f s1)) f = store s o).
    { rewrite <- Es. destruct f; try reflexivity. cbn. rewrite hset_same. reflexivity. }
    assert (Hsm : chg (modify_readonly false f s1) = chg s1 /\ cache (modify_readonly false f s1) = cache s1 /\
                  store (modify_readonly false f s1) = store s1 /\ nxt (modify_readonly false f s1) = nxt s1).
    { destruct f; repeat split. }
    destruct Hsm as (M1 & M2 & M3 & M4).
    assert (HR2 : Rok (with_chg (tput (chg s1) o f) (modify_readonly false f s1)) cu).
    { rewrite <- M1. eapply R_same; [apply (R_put _ cu o f HRm N1 Nu N2) | ].
      - rewrite M3, Et. exact C.
      - intros w Hw. apply (cache_locked _ _ o VLock w HRm); [rewrite M1, Eg; exact Ho | exact Hw].
      - intros i ->. destruct (Hn i eq_refl) as (X1 & X2 & X3 & X4 & X5).
        rewrite M1, M3, M4, Eg, Et. split; [exact X1 | ]. cbn. rewrite hset_same. cbn.
        split; [reflexivity | ]. split; [ | exact X4]. intros _. rewrite <- Es. reflexivity.
      - apply same_sym, upd_self. rewrite Hsn. apply D. reflexivity. }
    assert (Hx : forall t k v w, NoDup (map fst t) -> tget t k = Some w -> treplace t k v = tput t k v).
    { clear. induction t as [| [k' v'] t IH]; intros k v w ND H; cbn in *; [discriminate | ].
      inversion ND as [| ? ? Hn ND']; subst. destruct (k' =? k) eqn:E.
      - f_equal. apply Z.eqb_eq in E; subst k'.
        transitivity (map (fun e : Z * val => e) t); [ | apply map_id].
        apply map_ext_in. intros [a b] Hin; cbn. destruct (a =? k) eqn:Ea; [ | reflexivity].
        apply Z.eqb_eq in Ea; subst. exfalso; apply Hn, in_map_iff. exists (k, b); auto.
      - f_equal. apply (IH k v w); assumption. }
    rewrite (Hx (chg s1) o f VLock) by (rewrite ?Eg; first [exact Ho | apply (r_kchg _ _ HR)]).
    assert (Hcomm : modify_readonly false f (with_chg (tput (chg s1) o f) s1) =
                    with_chg (tput (chg s1) o f) (modify_readonly false f s1)) by (destruct f; reflexivity).
    rewrite Hcomm. split; [exact HR2 | ]. split; [cbn; congruence | ].
    intros o' Hne. cbn. rewrite tget_tput, Eg.
    destruct (o =? o') eqn:Eo; [apply Z.eqb_eq in Eo; congruence | reflexivity].
Qed.

Lemma prefetch_all_ok : forall b l s cu, Rok s cu -> NoDup l ->
  (forall o, In o l -> tget (chg s) o = None \/ tget (chg s) o = Some VLock /\ b = true) ->
  Rok (fold_left (prefetch_one c b) l s) cu /\ store (fold_left (prefetch_one c b) l s) = store s.
Proof.
  intros b; induction l as [| o l IH]; intros s cu HR ND H; cbn [fold_left]; [auto | ].
  inversion ND as [| ? ? Hn ND']; subst.
  destruct (prefetch_one_ok b s cu o HR (H o (or_introl eq_refl))) as (A & B & C).
  destruct (IH (prefetch_one c b s o) cu A ND') as (D & E).
  - intros k Hk. rewrite C by (intros ->; contradiction). apply H; right; exact Hk.
  - split; [exact D | congruence].
Qed.

End WithPool.

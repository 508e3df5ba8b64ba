(** * Search and update of key/value vectors; the abstract map shared by the tables. *)
From Coq Require Import Lia Permutation Sorting.Sorted List.
From Verif Require Import ValueModel ValueProofs SortModel SortProofs ChoicesModel SlotmapModel
  ChoicesProofs ChoicesProofs2 ChoicesProofs3.
Import ListNotations.

(** ** Equality of values is decidable *)
Lemma spec_float_dec (x y : SpecFloat.spec_float) : {x = y} + {x <> y}.
Proof. decide equality; try apply Bool.bool_dec; try apply Pos.eq_dec; apply Z.eq_dec. Qed.
Lemma num_dec (x y : num) : {x = y} + {x <> y}.
Proof. assert (forall a b : real, {a = b} + {a <> b}) by (decide equality; try apply Z.eq_dec; apply spec_float_dec). decide equality. Qed.
Lemma list_dec l : Forall (fun x : val => forall y, x = y \/ x <> y) l -> forall m : list val, l = m \/ l <> m.
Proof.
  induction 1 as [|a l Ha Hl IH]; intros [|b m]; try (right; discriminate); auto.
  destruct (Ha b) as [->|]; [|right; congruence]. destruct (IH m) as [->|]; [auto|right; congruence].
Qed.
Lemma val_dec (x y : val) : x = y \/ x <> y.
Proof.
  revert y. induction x using val_ind'; intros y; destruct y; try (right; discriminate).
  - destruct (N.eq_dec w w0) as [->|]; [auto|right; congruence].
  - destruct (num_dec n n0) as [->|]; [auto|right; congruence].
  - destruct (list_eq_dec N.eq_dec s s0) as [->|]; [auto|right; congruence].
  - destruct (Bool.bool_dec b secret) as [->|]; [|right; congruence].
    destruct (list_eq_dec N.eq_dec s s0) as [->|]; [auto|right; congruence].
  - destruct (IHx1 y1) as [->|]; [|right; congruence]. destruct (IHx2 y2) as [->|]; [auto|right; congruence].
  - destruct (list_dec l H l0) as [->|]; [auto|right; congruence].
  - destruct (list_dec l H l0) as [->|]; [auto|right; congruence].
  - destruct (list_dec l H l0) as [->|]; [auto|right; congruence].
  - destruct (IHx y) as [->|]; [|right; congruence]. destruct (list_dec l H l0) as [->|]; [auto|right; congruence].
  - destruct (N.eq_dec t t0) as [->|]; [|right; congruence]. destruct (N.eq_dec a a0) as [->|]; [auto|right; congruence].
Qed.

(** ** Binary search.  [p] entries are below the key, entry [p] is the key if [q = p+1],
    the rest is above. *)
Definition ranks {K} (c : K -> comparison) (ks : list K) (p q : nat) : Prop :=
  p <= q <= p + 1 /\ q <= length ks /\
  forall i x, nth_error ks i = Some x ->
    (i < p -> c x = Gt) /\ (p <= i < q -> c x = Eq) /\ (q <= i -> c x = Lt).
Lemma bs_loop_spec {K} (c : K -> comparison) ks p q : ranks c ks p q ->
  forall fuel b t m d,
  (0 <= b)%Z -> (b <= t + 1)%Z -> (t < Z.of_nat (length ks))%Z ->
  (b <= Z.of_nat p)%Z -> (Z.of_nat q <= t + 1)%Z -> (t - b + 1 <= Z.of_nat fuel)%Z ->
  (b <= t \/ d = 1 /\ b = m + 1 \/ d = -1 /\ t = m - 1)%Z ->
  (q = p + 1 /\ exists b', bs_loop c ks fuel b t m d = Some (Z.of_nat p, b', 0%Z)) \/
  (q = p /\ exists m' d', bs_loop c ks fuel b t m d = Some (m', Z.of_nat p, d') /\
     (d' = 1 /\ m' + 1 = Z.of_nat p \/ d' = -1 /\ m' = Z.of_nat p)%Z).
Proof.
  intros (Hpq & Hql & H). induction fuel as [|f IH]; intros b t m d Hb Hbt Ht Hp Hq Hf Hd; cbn [bs_loop].
  - destruct (Z.ltb_spec t b); [|lia]. right. split; [lia|]. exists m, d.
    replace (Z.of_nat p) with b by lia. split; auto. lia.
  - destruct (Z.ltb_spec t b).
    { right. split; [lia|]. exists m, d. replace (Z.of_nat p) with b by lia. split; auto. lia. }
    set (mid := (b + Z.quot (t - b) 2)%Z).
    assert (Hm : (b <= mid <= t)%Z).
    { unfold mid. rewrite Z.quot_div_nonneg by lia.
      assert (0 <= (t - b) / 2)%Z by (apply Z.div_pos; lia).
      assert ((t - b) / 2 <= t - b)%Z by (apply Z.div_le_upper_bound; lia). lia. }
    destruct (Z.ltb_spec mid 0); [lia|].
    destruct (nth_error ks (Z.to_nat mid)) as [y|] eqn:Ey.
    2:{ apply nth_error_None in Ey. lia. }
    destruct (H _ _ Ey) as (G1 & G2 & G3).
    destruct (le_lt_dec p (Z.to_nat mid)); [destruct (le_lt_dec q (Z.to_nat mid))|].
    + rewrite G3 by lia. apply IH; lia.
    + rewrite G2 by lia. left. split; [lia|]. exists b. repeat f_equal. lia.
    + rewrite G1 by lia. apply IH; lia.
Qed.

Lemma ranks_exist ks k : Forall vp ks -> ssorted ks -> vp k ->
  exists p q, ranks (cons_compare k) ks p q /\
    (q = p + 1 -> nth_error ks p = Some k) /\ (q = p -> ~ In k ks).
Proof.
  intros F S Hk. induction S as [|a ks S IH G].
  - exists 0, 0. split; [|split; [lia|intros _ []]]. split; [lia|]. split; [simpl; lia|].
    intros [|i]; discriminate.
  - inversion F as [|? ? Ha F']; subst. destruct (IH F') as (p & q & (Hpq & Hql & H) & He & Hn).
    destruct (cons_compare k a) eqn:C.
    + apply cmp_eq in C; auto. subst a. exists 0, 1. split; [|split; [reflexivity|lia]].
      split; [lia|]. split; [simpl; lia|]. intros [|i] x E; simpl in E.
      * injection E as <-. rewrite cmp_refl by auto. split; [lia|]. split; [auto|lia].
      * split; [lia|]. split; [lia|]. intros _. apply (Forall_in _ _ _ G). eapply nth_error_In; eauto.
    + assert (L : forall x, In x (a :: ks) -> lt k x).
      { intros x [<-|Hx]; auto. apply (lt_trans k a x); auto.
        - apply (Forall_in _ _ _ F' Hx). - apply (Forall_in _ _ _ G Hx). }
      exists 0, 0. split; [|split; [lia|]].
      * split; [lia|]. split; [simpl; lia|]. intros i x E. split; [lia|]. split; [lia|]. intros _. apply L.
        eapply nth_error_In; eauto.
      * intros _ Hi. apply L in Hi. now apply lt_irrefl in Hi.
    + exists (Datatypes.S p), (Datatypes.S q). split; [|split].
      * split; [lia|]. split; [simpl; lia|]. intros [|i] x E; simpl in E.
        -- injection E as <-. split; [auto|]. split; lia.
        -- destruct (H _ _ E) as (A1 & A2 & A3). split; [|split]; intros; [apply A1|apply A2|apply A3]; lia.
      * intros E. simpl. apply He. lia.
      * intros E [<-|Hi]; [rewrite cmp_refl in C by auto; discriminate|]. apply Hn; auto.
Qed.
Lemma ranks_ext {K} (c c' : K -> comparison) ks p q : (forall x, In x ks -> c x = c' x) ->
  ranks c ks p q -> ranks c' ks p q.
Proof.
  intros E (H1 & H2 & H). split; auto. split; auto. intros i x Hx.
  rewrite <- E by (eapply nth_error_In; eauto). auto.
Qed.
Lemma ssorted_firstn n l : ssorted l -> ssorted (firstn n l).
Proof.
  intros S. revert n. induction S as [|a l S IH G]; intros [|n]; simpl; try constructor; auto.
  - apply IH.
  - apply Forall_forall. intros x Hx. apply (Forall_in _ _ _ G). revert Hx. clear. revert n.
    induction l; intros [|n]; simpl; try tauto. intros [|Hx]; [auto|right]. eauto.
Qed.
Lemma ssorted_app l m : ssorted l -> ssorted m -> (forall x y, In x l -> In y m -> lt x y) -> ssorted (l ++ m).
Proof.
  intros S Sm H. induction S as [|a l S IH G]; simpl; auto. constructor.
  - apply IH. intros. apply H; simpl; auto.
  - apply Forall_app. split; auto. apply Forall_forall. intros. apply H; simpl; auto.
Qed.
Lemma nth_firstn {A} n (l : list A) i x : nth_error (firstn n l) i = Some x -> nth_error l i = Some x /\ i < n.
Proof.
  revert n i. induction l; intros [|n] [|i]; simpl; try discriminate; auto.
  - intros H. split; auto. lia.
  - intros H. apply IHl in H. split; [tauto|lia].
Qed.
Lemma nth_skipn {A} n (l : list A) i : nth_error (skipn n l) i = nth_error l (n + i).
Proof. revert n. induction l; intros [|n]; simpl; auto. now destruct i. Qed.
Lemma ranks_insert ks k p : Forall vp ks -> vp k -> ssorted ks -> ranks (cons_compare k) ks p p ->
  ssorted (insert_at p k ks).
Proof.
  intros F Hk S (Hpq & Hql & H). unfold insert_at.
  assert (L : forall x, In x (firstn p ks) -> lt x k).
  { intros x Hx. apply In_nth_error in Hx as [i Hi]. apply nth_firstn in Hi as [Hi Hl].
    destruct (H _ _ Hi) as (A & _). unfold lt. rewrite (cmp_opp k x), A by (auto; eapply Forall_in; eauto using nth_error_In).
    reflexivity. }
  assert (U : forall x, In x (skipn p ks) -> lt k x).
  { intros x Hx. apply In_nth_error in Hx as [i Hi]. rewrite nth_skipn in Hi.
    destruct (H _ _ Hi) as (_ & _ & A). apply A. lia. }
  apply ssorted_app; [now apply ssorted_firstn| |].
  - constructor; [now apply ssorted_skipn|]. apply Forall_forall. auto.
  - intros x y Hx [<-|Hy]; auto.
    assert (In x ks) by (rewrite <- (firstn_skipn p ks); apply in_or_app; auto).
    assert (In y ks) by (rewrite <- (firstn_skipn p ks); apply in_or_app; auto).
    apply (lt_trans x k y); auto; eapply Forall_in; eauto.
Qed.
Lemma kcmp_cons k m : kcmp k m = cons_compare k m.
Proof. destruct k; auto. Qed.

(** ** Linear search *)
Lemma key_matches_iff s k : vp s -> vp k -> (key_matches s k = true <-> s = k).
Proof.
  intros Hs Hk. destruct k; try (now apply leq_eq). simpl. destruct s; try (split; discriminate).
  rewrite N.eqb_eq. split; [intros ->; reflexivity|congruence].
Qed.
Section Vec.
Context {V : Type}.
Implicit Types l : list (val * V).
Lemma keys_in l k v : In (k, v) l -> In k (keys_of l).
Proof. intros H. apply (in_map fst) in H. exact H. Qed.
Lemma in_keys l k : In k (keys_of l) -> exists v, In (k, v) l.
Proof. intros H. apply in_map_iff in H as ([k' v] & <- & H). eauto. Qed.
Lemma nodup_fun l k v w : NoDup (keys_of l) -> In (k, v) l -> In (k, w) l -> v = w.
Proof.
  induction l as [|[k' v'] l IH]; simpl; [tauto|]. intros N H1 H2. inversion N; subst.
  destruct H1 as [E1|H1], H2 as [E2|H2].
  - congruence.
  - injection E1 as -> ->. apply keys_in in H2. tauto.
  - injection E2 as -> ->. apply keys_in in H1. tauto.
  - auto.
Qed.
Lemma keyvals_get_spec k l : Forall vp (keys_of l) -> vp k ->
  (exists i v, keyvals_get k l = Some i /\ nth_error l i = Some (k, v)) \/
  (keyvals_get k l = None /\ ~ In k (keys_of l)).
Proof.
  intros F Hk. induction l as [|[k' v'] l IH]; simpl; [right; auto|].
  inversion F as [|? ? Hk' F']; subst.
  destruct (key_matches k' k) eqn:E.
  - apply key_matches_iff in E; auto. subst. left. exists 0, v'. auto.
  - assert (k' <> k) by (intros E'; apply key_matches_iff in E'; auto; congruence).
    destruct (IH F') as [(i & v & -> & Hn)|(-> & Hn)].
    + left. exists (S i), v. auto.
    + right. split; auto. intros [|]; auto.
Qed.
Lemma sortvec_get_spec k l : Forall vp (keys_of l) -> ssorted (keys_of l) -> vp k ->
  (exists i v, sortvec_get k l = Some (Some i) /\ nth_error l i = Some (k, v)) \/
  (sortvec_get k l = Some None /\ ~ In k (keys_of l)).
Proof.
  intros F S Hk. unfold sortvec_get. destruct (Z.ltb_spec (Z.of_nat (length l)) 4).
  - destruct (keyvals_get_spec k l F Hk) as [(i & v & -> & Hn)|(-> & Hn)]; eauto.
  - destruct (ranks_exist _ k F S Hk) as (p & q & R & He & Hn).
    apply (ranks_ext _ (kcmp k)) in R; [|intros; now rewrite kcmp_cons].
    assert (Hl : length (keys_of l) = length l) by apply map_length.
    assert (Hq := R). destruct Hq as (Q1 & Q2 & _).
    destruct (bs_loop_spec _ _ p q R (Datatypes.S (length l)) 0 (Z.of_nat (length l) - 1) 0 2) as
      [(E & b' & ->)|(E & m' & d' & -> & D)]; try lia.
    + left. specialize (He E). rewrite Nat2Z.id. cbn. unfold keys_of in He. rewrite nth_error_map in He.
      destruct (nth_error l p) as [[k' v]|] eqn:En; [|discriminate]. cbn in He. injection He as ->. eauto.
    + right. cbn. replace (d' =? 0)%Z with false by (symmetry; apply Z.eqb_neq; lia). split; auto.
Qed.

(** ** Updates *)
Definition upd l k (ov : option V) l' : Prop :=
  NoDup (keys_of l') /\ (forall k' v, k' <> k -> (In (k', v) l' <-> In (k', v) l)) /\
  (forall v, In (k, v) l' <-> ov = Some v).
Lemma nth_split_at l i e : nth_error l i = Some e -> l = firstn i l ++ e :: skipn (S i) l.
Proof.
  revert i. induction l as [|a l IH]; intros [|i]; simpl; try discriminate.
  - now intros [= ->].
  - intros H. f_equal. now apply IH.
Qed.
Lemma insert_perm {A} i (x : A) (l : list A) : Permutation (insert_at i x l) (x :: l).
Proof. unfold insert_at. rewrite <- Permutation_middle. now rewrite firstn_skipn. Qed.
Lemma upd_perm l l2 k ov l' l2' : Permutation l l2 -> Permutation l' l2' -> upd l k ov l' -> upd l2 k ov l2'.
Proof.
  intros P P' (N & O & K). split; [|split].
  - eapply Permutation_NoDup; [|exact N]. now apply Permutation_map.
  - intros k' v Hk. split; intros H.
    + eapply Permutation_in; [exact P|]. apply O; auto. eapply Permutation_in; [symmetry; exact P'|auto].
    + eapply Permutation_in; [exact P'|]. apply O; auto. eapply Permutation_in; [symmetry; exact P|auto].
  - intros v. rewrite <- K. split; apply Permutation_in; auto. now symmetry.
Qed.
Lemma cons_upd l k v : NoDup (keys_of l) -> ~ In k (keys_of l) -> upd l k (Some v) ((k, v) :: l).
Proof.
  intros N Hn. split; [now constructor|]. split.
  - intros k' w Hk. simpl. split; [intros [E|]; [congruence|auto]|auto].
  - intros w. simpl. split.
    + intros [E|H]; [congruence|]. apply keys_in in H. tauto.
    + intros [= ->]. auto.
Qed.
Lemma insert_upd l k v i : NoDup (keys_of l) -> ~ In k (keys_of l) -> upd l k (Some v) (insert_at i (k, v) l).
Proof.
  intros N Hn. eapply upd_perm; [reflexivity| |now apply cons_upd]. symmetry. apply insert_perm.
Qed.
Lemma upd_cons_swap l k v v' : upd l k (Some v) ((k, v) :: l) -> upd ((k, v) :: l) k (Some v') ((k, v') :: l).
Proof.
  intros (N & O & K). inversion N as [|? ? Hn N']; subst. split; [|split].
  - exact N.
  - intros k' w Hk. simpl. split; (intros [E|]; [congruence|auto]).
  - intros w. simpl. split.
    + intros [E|H]; [congruence|]. apply keys_in in H. tauto.
    + intros [= ->]. auto.
Qed.
Lemma nodup_split l i k v : NoDup (keys_of l) -> nth_error l i = Some (k, v) ->
  exists r, Permutation l ((k, v) :: r) /\ NoDup (keys_of r) /\ ~ In k (keys_of r) /\
    (forall w, Permutation (set_at i (k, w) l) ((k, w) :: r)) /\ remove_at i l = r.
Proof.
  intros N E. exists (remove_at i l). pose proof (nth_split_at _ _ _ E) as S.
  assert (P : Permutation l ((k, v) :: remove_at i l)).
  { rewrite S at 1. symmetry. apply Permutation_middle. }
  assert (N' : NoDup (keys_of ((k, v) :: remove_at i l))).
  { eapply Permutation_NoDup; [|exact N]. now apply Permutation_map. }
  inversion N'; subst. split; auto. split; auto. split; auto. split; auto.
  intros w. unfold set_at, remove_at. symmetry. apply Permutation_middle.
Qed.
Lemma set_upd l i k v w : NoDup (keys_of l) -> nth_error l i = Some (k, v) -> upd l k (Some w) (set_at i (k, w) l).
Proof.
  intros N E. destruct (nodup_split l i k v N E) as (r & P & N' & Hn & Ps & _).
  eapply upd_perm; [symmetry; exact P|symmetry; apply Ps|]. apply upd_cons_swap. now apply cons_upd.
Qed.
Lemma remove_upd l i k v : NoDup (keys_of l) -> nth_error l i = Some (k, v) -> upd l k None (remove_at i l).
Proof.
  intros N E. destruct (nodup_split l i k v N E) as (r & P & N' & Hn & _ & ->).
  eapply upd_perm; [symmetry; exact P|reflexivity|]. split; auto. split.
  - intros k' w Hk. simpl. split; [auto|intros [E'|]; [congruence|auto]].
  - intros w. split; [|discriminate]. intros H. apply keys_in in H. tauto.
Qed.
Lemma upd_keys l k ov l' : upd l k ov l' -> forall x, x <> k -> (In x (keys_of l') <-> In x (keys_of l)).
Proof.
  intros (_ & O & _) x Hx. split; intros H; apply in_keys in H as [v H]; apply (keys_in _ _ v); apply O; auto.
Qed.
End Vec.

(** ** The abstract map: which keys are present, and the set of values of each. *)
Record amap := { pres : val -> Prop; cont : val -> val -> Prop }.
Definition a_empty : amap := {| pres _ := False; cont _ _ := False |}.
Definition a_store (m : amap) (k : val) (P : val -> Prop) : amap :=
  {| pres x := x = k \/ pres m x; cont x y := (x = k /\ P y) \/ (x <> k /\ cont m x y) |}.
Definition a_add (m : amap) (k : val) (P : val -> Prop) : amap :=
  {| pres x := pres m x \/ (x = k /\ exists y, P y); cont x y := cont m x y \/ (x = k /\ P y) |}.
(** Dropping values: a key left without values is removed. *)
Definition a_drop (m : amap) (k : val) (P : val -> Prop) : amap :=
  {| pres x := pres m x /\ (x = k -> exists y, cont m k y /\ ~ P y);
     cont x y := cont m x y /\ (x = k -> ~ P y) |}.
Definition a_delete (m : amap) (k : val) : amap :=
  {| pres x := pres m x /\ x <> k; cont x y := cont m x y /\ x <> k |}.

(** Values for which the tables are maps: not an error constant and not #UNBOUND. *)
Definition clean (x : val) : Prop := troublep x = false /\ x <> KUNBOUND.
Definition key_ok (k : val) : Prop := elt_ok k /\ troublep k = false.
Definition vgood (v : lv) (P : val -> Prop) : Prop :=
  lv_ok v /\ lv_big v /\ forall x, In x (lelts v) <-> P x.
Record R (l : list keyval) (m : amap) : Prop := {
  r_nodup : NoDup (keys_of l);
  r_keys : Forall key_ok (keys_of l);
  r_pres : forall k, pres m k <-> In k (keys_of l);
  r_cont : forall k v, In (k, v) l -> vgood v (cont m k);
  r_sub : forall k x, cont m k x -> pres m k /\ clean x;
}.
Lemma R_vp l m : R l m -> Forall vp (keys_of l).
Proof. intros H. eapply Forall_impl; [|apply (r_keys _ _ H)]. intros k [E _]. auto. Qed.
Lemma R_empty : R [] a_empty.
Proof. constructor; simpl; try constructor; try tauto. Qed.
Lemma R_upd l m k ov l' m' : R l m -> key_ok k -> upd l k ov l' ->
  (forall x, x <> k -> (pres m' x <-> pres m x)) ->
  (forall x y, x <> k -> (cont m' x y <-> cont m x y)) ->
  match ov with
  | Some v => pres m' k /\ vgood v (cont m' k) /\ (forall y, cont m' k y -> clean y)
  | None => ~ pres m' k /\ forall y, ~ cont m' k y
  end -> R l' m'.
Proof.
  intros H Hk U P C M. pose proof (upd_keys _ _ _ _ U) as UK. destruct U as (N & O & K).
  assert (Kin : In k (keys_of l') <-> exists v, ov = Some v).
  { split; [intros Hi; apply in_keys in Hi as [v Hi]; exists v; now apply K|].
    intros [v E]. apply (keys_in _ _ v). now apply K. }
  constructor; auto.
  - apply Forall_forall. intros x Hx. destruct (val_dec x k) as [->|D]; auto.
    apply UK in Hx; auto. apply (Forall_in _ _ _ (r_keys _ _ H) Hx).
  - intros x. destruct (val_dec x k) as [->|D].
    + rewrite Kin. destruct ov as [v|].
      * split; [eauto|tauto].
      * split; [tauto|intros [v E]; discriminate].
    + rewrite P, UK by auto. apply (r_pres _ _ H).
  - intros x v Hv. destruct (val_dec x k) as [->|D].
    + apply K in Hv. subst ov. tauto.
    + apply O in Hv; auto. destruct (r_cont _ _ H _ _ Hv) as (A & B & E). split; auto. split; auto.
      intros y. now rewrite E, C.
  - intros x y Hy. destruct (val_dec x k) as [->|D].
    + destruct ov as [v|]; [|destruct M as [_ M]; now apply M in Hy]. split; [tauto|]. now apply M.
    + rewrite P by auto. apply C in Hy; auto. now apply (r_sub _ _ H).
Qed.
(** The four updates. *)
Lemma R_store l m k v P l' : R l m -> key_ok k -> upd l k (Some v) l' -> vgood v P ->
  (forall y, P y -> clean y) -> R l' (a_store m k P).
Proof.
  intros H Hk U (V1 & V2 & V3) Cl. apply (R_upd l m k (Some v) l'); auto; cbn.
  - intros; tauto. - intros; tauto.
  - split; [auto|]. split; [|intros y [[_ Hy]|[E _]]; [auto|congruence]].
    split; auto. split; auto. intros y. rewrite V3. tauto.
Qed.
Lemma R_add l m k v P l' : R l m -> key_ok k -> upd l k (Some v) l' ->
  (exists y, P y) -> (forall y, P y -> clean y) ->
  vgood v (fun y => cont m k y \/ P y) -> R l' (a_add m k P).
Proof.
  intros H Hk U Ne Cl (V1 & V2 & V3). apply (R_upd l m k (Some v) l'); auto; cbn.
  - intros; tauto. - intros; tauto.
  - split; [auto|]. split.
    + split; auto. split; auto. intros y. rewrite V3. tauto.
    + intros y [Hy|[_ Hy]]; auto. now apply (r_sub _ _ H) in Hy.
Qed.
Lemma R_drop_some l m k v P l' : R l m -> key_ok k -> upd l k (Some v) l' -> pres m k ->
  vgood v (fun y => cont m k y /\ ~ P y) -> lelts v <> [] -> R l' (a_drop m k P).
Proof.
  intros H Hk U Pk (V1 & V2 & V3) Ne. apply (R_upd l m k (Some v) l'); auto; cbn.
  - intros x Hx. tauto. - intros x y Hx. tauto.
  - split; [|split].
    + split; auto. intros _. destruct (lelts v) as [|y r]; [congruence|]. exists y. apply V3. now left.
    + split; auto. split; auto. intros y. rewrite V3. tauto.
    + intros y [Hy _]. now apply (r_sub _ _ H) in Hy.
Qed.
Lemma R_drop_none l m k P l' : R l m -> key_ok k -> upd l k None l' ->
  (forall y, ~ (cont m k y /\ ~ P y)) -> R l' (a_drop m k P).
Proof.
  intros H Hk U Ne. apply (R_upd l m k None l'); auto; cbn.
  - intros x Hx. tauto. - intros x y Hx. tauto.
  - split.
    + intros [_ E]. destruct (E eq_refl) as [y Hy]. now apply Ne in Hy.
    + intros y [Hy E]. apply (Ne y). auto.
Qed.
Lemma R_delete l m k l' : R l m -> key_ok k -> upd l k None l' -> R l' (a_delete m k).
Proof.
  intros H Hk U. apply (R_upd l m k None l'); auto; cbn; intros; tauto.
Qed.
Lemma R_ext l m m' : R l m -> (forall x, pres m' x <-> pres m x) ->
  (forall x y, cont m' x y <-> cont m x y) -> R l m'.
Proof.
  intros [A B C D E] P Q. constructor; auto.
  - intros k. now rewrite P. - intros k v Hv. destruct (D k v Hv) as (V1 & V2 & V3).
    split; auto. split; auto. intros y. now rewrite V3, Q.
  - intros k x Hx. rewrite P. apply E. now apply Q.
Qed.
Lemma R_absent l m k : R l m -> ~ In k (keys_of l) -> ~ pres m k /\ forall y, ~ cont m k y.
Proof.
  intros H Hn. rewrite (r_pres _ _ H). split; auto. intros y Hy. apply (r_sub _ _ H) in Hy as [Hy _].
  apply (r_pres _ _ H) in Hy. tauto.
Qed.
Lemma R_drop_absent l m k P : R l m -> ~ In k (keys_of l) -> R l (a_drop m k P).
Proof.
  intros H Hn. destruct (R_absent _ _ _ H Hn) as [A B]. apply (R_ext l m); auto; cbn.
  - intros x. split; [tauto|]. intros Hx. split; auto. intros ->. tauto.
  - intros x y. split; [tauto|]. intros Hx. split; auto. intros ->. exfalso. now apply (B y).
Qed.
Lemma R_delete_absent l m k : R l m -> ~ In k (keys_of l) -> R l (a_delete m k).
Proof.
  intros H Hn. destruct (R_absent _ _ _ H Hn) as [A B]. apply (R_ext l m); auto; cbn.
  - intros x. split; [tauto|]. intros Hx. split; auto. intros ->. tauto.
  - intros x y. split; [tauto|]. intros Hx. split; auto. intros ->. now apply (B y).
Qed.
Lemma R_add_none l m k P : R l m -> (forall y, ~ P y) -> R l (a_add m k P).
Proof.
  intros H Hn. apply (R_ext l m); auto; cbn.
  - intros x. split; [|tauto]. intros [|[_ [y Hy]]]; auto. now apply Hn in Hy.
  - intros x y. split; [|tauto]. intros [|[_ Hy]]; auto. now apply Hn in Hy.
Qed.
Lemma R_perm l l' m : R l m -> Permutation l l' -> R l' m.
Proof.
  intros [A B C D E] P. assert (PK : Permutation (keys_of l) (keys_of l')) by now apply Permutation_map.
  constructor; auto.
  - eapply Permutation_NoDup; eauto. - eapply Permutation_Forall; eauto.
  - intros k. rewrite C. split; apply Permutation_in; auto. now symmetry.
  - intros k v Hv. apply D. eapply Permutation_in; [symmetry; exact P|auto].
Qed.

(** Facts about values used by the guards. *)
Lemma vgood_empty v P : vgood v P -> (lemptyp v = true <-> forall y, ~ P y).
Proof.
  intros (V1 & V2 & V3). destruct v as [s|p]; cbn [lemptyp lv_ok lelts] in *.
  - rewrite is_empty_selts by auto. split.
    + intros E y Hy. apply V3 in Hy. now rewrite E in Hy.
    + intros Hn. destruct (selts s) as [|y r]; auto. exfalso. apply (Hn y). apply V3. now left.
  - split; [discriminate|]. intros Hn. destruct V2 as (x & y & Hx & _). exfalso. now apply (Hn x), V3.
Qed.
Lemma vgood_clean v P : vgood v P -> (forall y, P y -> clean y) ->
  trouble v = false /\ lvoidp v = false /\ lunboundp v = false.
Proof.
  intros (V1 & V2 & V3) Cl. destruct v as [[x|a l]|p]; cbn [trouble lvoidp lunboundp]; auto.
  destruct V1 as [->|V1]; [auto|].
  assert (Hx : P x) by (apply V3; cbn [lelts]; rewrite selts_elt by auto; now left).
  destruct (Cl x Hx) as [T U]. split; auto. split; [now apply elt_nonvoid|].
  destruct x; auto. destruct (N.eqb_spec w 77); auto. subst. now elim U.
Qed.
Lemma emptyv_good : vgood EMPTYV (fun _ => False).
Proof. split; [now left|]. split; [exact I|]. intros x. simpl. tauto. Qed.
Lemma vgood_lelts v P : vgood v P -> ~ (forall y, ~ P y) -> lelts v <> [].
Proof. intros (_ & _ & V) Hn E. apply Hn. intros y Hy. apply V in Hy. now rewrite E in Hy. Qed.

(** The comparison of two sets of values made by the table tests. *)
Lemma test_values_spec cf v P cur Q : cfg_ok cf -> vgood v P -> (forall y, P y -> clean y) -> vgood cur Q ->
  exists b, test_values cf v cur = Some b /\
   (b = true <-> (exists y, P y /\ Q y) \/ (forall y, ~ P y) /\ (forall y, ~ Q y)).
Proof.
  intros Hcf V Cl C.
  unfold test_values. destruct (vgood_clean _ _ V Cl) as (_ & -> & _).
  assert (Ov : (lelts v <> [] \/ lelts cur <> []) -> exists b, kno_overlapp cf v cur = Some b /\
     (b = true <-> (exists y, P y /\ Q y) \/ (forall y, ~ P y) /\ (forall y, ~ Q y))).
  { intros Hne. destruct V as (V1 & V2 & V3), C as (C1 & C2 & C3).
    destruct (overlapp_spec cf v cur Hcf V1 C1) as (b & E & B); [tauto|].
    exists b. split; auto. rewrite B. split.
    - intros (y & Y1 & Y2). left. exists y. now rewrite <- V3, <- C3.
    - intros [(y & Y1 & Y2)|[N1 N2]].
      + exists y. now rewrite V3, C3.
      + exfalso. destruct Hne as [Hne|Hne].
        * destruct (lelts v) as [|y r] eqn:El; auto. apply (N1 y). apply V3. now left.
        * destruct (lelts cur) as [|y r] eqn:El; auto. apply (N2 y). apply C3. now left. }
  assert (Big : forall x, lv_ok x -> (match x with Simple (SVal _) => False | _ => True end) -> lv_big x -> lelts x <> []).
  { intros [[x|a l]|p]; simpl; try tauto.
    - intros (_ & _ & L & _) _ _ E. subst. simpl in L. lia.
    - intros _ _ (x & y & Hx & _) E. rewrite E in Hx. exact Hx. }
  destruct v as [[v|a l]|p].
  2:{ apply Ov. left. apply Big; try apply V; exact I. }
  2:{ apply Ov. left. apply Big; try apply V; exact I. }
  destruct cur as [[c|a l]|p].
  2:{ apply Ov. right. apply Big; try apply C; exact I. }
  2:{ apply Ov. right. apply Big; try apply C; exact I. }
  exists (lequal v c). split; auto. destruct V as (V1 & V2 & V3), C as (C1 & C2 & C3). cbn [lelts lv_ok] in *.
  rewrite leq_eq.
  2:{ destruct V1 as [->|]; [apply vp_empty|auto]. }
  2:{ destruct C1 as [->|]; [apply vp_empty|auto]. }
  destruct V1 as [->|V1].
  - assert (NP : forall y, ~ P y) by (intros y Hy; now apply V3 in Hy).
    destruct C1 as [->|C1].
    + assert (NC : forall y, ~ Q y) by (intros y Hy; now apply C3 in Hy). tauto.
    + split; [intros <-; destruct C1 as (_ & C1 & _); congruence|].
      intros [(y & Hy & _)|[_ Hn]]; [exfalso; now apply (NP y)|]. exfalso. apply (Hn c), C3.
      rewrite selts_elt by auto. now left.
  - assert (PV : forall y, P y <-> y = v) by (intros y; rewrite <- V3, selts_elt by auto; simpl; intuition).
    destruct C1 as [->|C1].
    + split; [intros ->; destruct V1 as (_ & V1 & _); congruence|].
      intros [(y & _ & Hy)|[Hn _]]; [now apply C3 in Hy|]. exfalso. apply (Hn v). now apply PV.
    + assert (CV : forall y, Q y <-> y = c) by (intros y; rewrite <- C3, selts_elt by auto; simpl; intuition).
      split.
      * intros ->. left. exists c. now rewrite PV, CV.
      * intros [(y & Y1 & Y2)|[Hn _]]; [|exfalso; apply (Hn v); now apply PV].
        apply PV in Y1. apply CV in Y2. congruence.
Qed.

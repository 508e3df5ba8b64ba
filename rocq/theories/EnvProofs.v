(* EnvModel against EnvSpec: the relation between the two machines and its
   preservation by every tame operation. *)

From Coq Require Import List Arith Bool Lia ZifyBool Sorted.
Import ListNotations.
From Verif Require Import EnvModel EnvSpec.

(* ------------------------------------------------------------------ *)
(* Lists *)

Lemma upd_length : forall A (l : list A) i a, length (upd l i a) = length l.
Proof. induction l; destruct i; simpl; auto. Qed.

Lemma nth_upd_same : forall A (l : list A) i a,
  i < length l -> nth_error (upd l i a) i = Some a.
Proof. induction l; destruct i; simpl; intros; try lia; auto. apply IHl; lia. Qed.

Lemma nth_upd_other : forall A (l : list A) i j a,
  i <> j -> nth_error (upd l i a) j = nth_error l j.
Proof.
  induction l; destruct i; simpl; intros; auto; destruct j; simpl; auto; try lia.
Qed.

Lemma nth_upd : forall A (l : list A) i j a,
  nth_error (upd l i a) j =
  if j =? i then (if i <? length l then Some a else None) else nth_error l j.
Proof.
  intros. destruct (Nat.eqb_spec j i).
  - subst. destruct (Nat.ltb_spec i (length l)).
    + apply nth_upd_same; auto.
    + apply nth_error_None. rewrite upd_length. lia.
  - apply nth_upd_other. lia.
Qed.

Lemma upd_out : forall A (l : list A) i a, length l <= i -> upd l i a = l.
Proof. induction l; destruct i; simpl; intros; auto; try lia. f_equal. apply IHl; lia. Qed.

Lemma nth_error_app_l : forall A (l l' : list A) i a,
  nth_error l i = Some a -> nth_error (l ++ l') i = Some a.
Proof.
  intros. rewrite nth_error_app1; auto. apply nth_error_Some. congruence.
Qed.

Lemma nth_snoc : forall A (l : list A) a j,
  nth_error (l ++ [a]) j =
  if j =? length l then Some a else nth_error l j.
Proof.
  intros. destruct (Nat.eqb_spec j (length l)).
  - subst. rewrite nth_error_app2, Nat.sub_diag; auto.
  - destruct (Nat.lt_ge_cases j (length l)).
    + apply nth_error_app1; auto.
    + rewrite nth_error_app2 by lia.
      destruct (j - length l) eqn:E; [lia|]. simpl.
      transitivity (@None A); [destruct n0; auto | symmetry; apply nth_error_None; lia].
Qed.

Lemma nth_err : forall A (l : list A) i d,
  nth i l d = match nth_error l i with Some a => a | None => d end.
Proof. induction l; destruct i; simpl; auto. Qed.

(* ------------------------------------------------------------------ *)
(* Tables *)

Lemma pos_bound : forall s l i, pos s l = Some i -> i < length l.
Proof.
  induction l as [|[s' v] l IH]; simpl; intros; [discriminate|].
  destruct (s =? s'); [inversion H; lia|].
  destruct (pos s l); simpl in H; inversion H; subst.
  specialize (IH _ eq_refl). lia.
Qed.

Lemma assoc_pos : forall s l,
  assoc s l = match pos s l with
              | Some i => option_map snd (nth_error l i)
              | None => None
              end.
Proof.
  induction l as [|[s' v] l IH]; simpl; auto.
  destruct (s =? s'); simpl; auto.
  rewrite IH. destruct (pos s l); simpl; auto.
Qed.

Lemma assoc_some_pos : forall s l,
  (exists v, assoc s l = Some v) <-> (exists i, pos s l = Some i).
Proof.
  intros. rewrite assoc_pos. destruct (pos s l) eqn:E.
  - split; eauto. intros _. apply pos_bound in E.
    destruct (nth_error l n) eqn:F; simpl; eauto.
    apply nth_error_None in F. lia.
  - split; intros [? H]; discriminate.
Qed.

Lemma assoc_set_put : forall s v l i,
  pos s l = Some i -> assoc_set s v l = put l i v.
Proof.
  induction l as [|[s' v'] l IH]; simpl; intros; [discriminate|].
  destruct (Nat.eqb_spec s s').
  - inversion H; subst. reflexivity.
  - destruct (pos s l); simpl in H; inversion H; subst.
    unfold put. simpl. f_equal. apply (IH n0); auto.
Qed.

Lemma put_fst : forall l i v, map fst (put l i v) = map fst l.
Proof.
  unfold put. induction l as [|[s x] l IH]; intros; destruct i; simpl; auto.
  f_equal. apply IH.
Qed.

Lemma put_upd : forall l i s x v,
  nth_error l i = Some (s, x) -> upd l i (s, v) = put l i v.
Proof.
  unfold put. induction l as [|[s' x'] l IH]; intros; destruct i; simpl in *;
    try discriminate.
  - inversion H; subst. auto.
  - f_equal. eapply IH; eauto.
Qed.

Lemma pos_nodup : forall l i s x,
  NoDup (map fst l) -> nth_error l i = Some (s, x) -> pos s l = Some i.
Proof.
  induction l as [|[s' x'] l IH]; intros; destruct i; simpl in *; try discriminate.
  - inversion H0; subst. rewrite Nat.eqb_refl. auto.
  - inversion H; subst. destruct (Nat.eqb_spec s s').
    + subst. exfalso. apply H3. apply nth_error_In in H0.
      apply (in_map fst) in H0. exact H0.
    + erewrite IH by eauto. auto.
Qed.

Lemma pos_map : forall s l l', map fst l = map fst l' -> pos s l = pos s l'.
Proof.
  induction l as [|[s1 x1] l IH]; destruct l' as [|[s2 x2] l']; simpl; intros;
    try discriminate; auto.
  inversion H; subst. destruct (s =? s2); auto. rewrite (IH _ H2). auto.
Qed.

Lemma assoc_app : forall s l l',
  assoc s (l ++ l') = match assoc s l with Some v => Some v | None => assoc s l' end.
Proof.
  induction l as [|[s' v] l IH]; simpl; intros; auto.
  destruct (s =? s'); auto.
Qed.

Lemma assoc_assoc_set : forall s' s v l,
  assoc s' (assoc_set s v l) =
  if s' =? s then match assoc s l with Some _ => Some v | None => None end
  else assoc s' l.
Proof.
  induction l as [|[s1 v1] l IH]; simpl.
  - destruct (s' =? s); auto.
  - destruct (Nat.eqb_spec s s1); simpl.
    + subst. destruct (Nat.eqb_spec s' s1); auto.
    + destruct (Nat.eqb_spec s' s1).
      * subst. destruct (Nat.eqb_spec s1 s); [congruence|auto].
      * rewrite IH. auto.
Qed.

Lemma assoc_hash_store : forall s' s v l,
  assoc s' (hash_store l s v) = if s' =? s then Some v else assoc s' l.
Proof.
  intros. unfold hash_store. destruct (assoc s l) eqn:E.
  - rewrite assoc_assoc_set, E. auto.
  - rewrite assoc_app. simpl. destruct (Nat.eqb_spec s' s).
    + subst. rewrite E. auto.
    + destruct (assoc s' l); auto.
Qed.

Lemma table_upd : forall ts t l u,
  table (upd ts t l) u = if (u =? t) && (t <? length ts) then l else table ts u.
Proof.
  intros. unfold table. rewrite nth_upd.
  destruct (Nat.eqb_spec u t); simpl; auto. subst.
  destruct (Nat.ltb_spec t (length ts)); auto.
  replace (nth_error ts t) with (@None (list (sym * val))); auto.
  symmetry. apply nth_error_None. lia.
Qed.

Lemma atab_upd : forall A t g u,
  atab (with_tab A t g) u =
  if (u =? t) && (t <? length (atabs A)) then g else atab A u.
Proof.
  intros. unfold atab, with_tab. simpl. rewrite !nth_err, nth_upd.
  destruct (Nat.eqb_spec u t); simpl; auto. subst.
  destruct (Nat.ltb_spec t (length (atabs A))); auto.
  replace (nth_error (atabs A) t) with (@None (sym -> option val)); auto.
  symmetry. apply nth_error_None. lia.
Qed.

(* ------------------------------------------------------------------ *)
(* The relation *)

Definition absb (b : binds) : abinds :=
  match b with BSchema l => ALex l | BHash t => AMod t end.

Definition dyn (x : nat) (f : cframe) : bool :=
  match fcopy f with Some c => c =? x | None => false end.

Definition isc (x : nat) (f : cframe) : Prop :=
  fcopy f = None \/ fcopy f = Some x.

Definition sameshape (b b' : binds) : Prop :=
  match b, b' with
  | BSchema l, BSchema l' => map fst l = map fst l'
  | BHash t, BHash t' => t = t'
  | _, _ => False
  end.

Record R (d : bool) (al rk : nat -> nat) (st : cstate) (A : astate) : Prop := mkR
  { r_tlen : length (tabs st) = length (atabs A);
    r_tabs : forall t s, assoc s (table (tabs st) t) = atab A t s;
    r_stk : stk st = astk A;
    r_hlen : length (hs st) = length (ahs A);
    r_hs : forall h x, nth_error (hs st) h = Some x ->
      ahandle A h = match frame st x with
                    | Some f => Some (dyn x f, al x)
                    | None => None
                    end;
    r_hb : forall h x, nth_error (hs st) h = Some x -> x < length (heap st);
    r_can : forall x f, frame st x = Some f -> isc x f ->
      nth_error (frames A) (al x)
      = Some (mka (absb (fbind f)) (fexp f) (option_map al (fpar f)));
    r_cop : forall x f c, frame st x = Some f -> fcopy f = Some c -> c <> x ->
      exists g, frame st c = Some g /\ fcopy g = Some c /\ al c = al x
        /\ option_map al (fpar g) = option_map al (fpar f)
        /\ sameshape (fbind f) (fbind g) /\ fexp g = None /\ rk c = rk x;
    r_inj : forall x y f g, frame st x = Some f -> frame st y = Some g ->
      isc x f -> isc y g -> al x = al y -> x = y;
    r_par : forall x f p, frame st x = Some f -> fpar f = Some p ->
      exists g, frame st p = Some g /\ rk p < rk x
        /\ (fcopy f = Some x -> fcopy g = Some p)
        /\ (fcopy g <> Some p -> p < x);
    r_rk : forall x f, frame st x = Some f ->
      rk x < length (heap st) /\ rk x < length (frames A);
    r_sta : forall x f, frame st x = Some f -> fcopy f <> Some x ->
      (exists h, In h (stk st) /\ nth_error (hs st) h = Some x)
      /\ (forall h h', nth_error (hs st) h = Some x ->
                       nth_error (hs st) h' = Some x -> h = h')
      /\ (exists l, fbind f = BSchema l) /\ fexp f = None;
    r_desc : StronglySorted
      (fun h h' => forall x x', nth_error (hs st) h = Some x ->
         nth_error (hs st) h' = Some x' -> x' < x) (stk st);
    r_stkok : forall h, In h (stk st) -> exists x f,
      nth_error (hs st) h = Some x /\ frame st x = Some f /\ fcopy f <> Some x;
    r_nodup : forall x f l, frame st x = Some f -> fbind f = BSchema l ->
      d = true -> NoDup (map fst l) }.

Lemma frame_lt : forall st x f, frame st x = Some f -> x < length (heap st).
Proof.
  unfold frame. intros. apply nth_error_Some. destruct (nth_error (heap st) x);
    congruence.
Qed.

Lemma frame_set : forall st x o y, x < length (heap st) ->
  frame (set_frame st x o) y = if y =? x then o else frame st y.
Proof.
  intros. unfold frame, set_frame. simpl. rewrite nth_upd.
  destruct (y =? x); auto.
  replace (x <? length (heap st)) with true by (symmetry; apply Nat.ltb_lt; auto).
  auto.
Qed.

Lemma frame_new : forall st f y,
  frame (new_frame st f) y = if y =? length (heap st) then Some f else frame st y.
Proof.
  intros. unfold frame, new_frame. simpl. rewrite nth_snoc.
  destruct (y =? length (heap st)); auto.
Qed.

Lemma dyn_spec : forall x f, dyn x f = true <-> fcopy f = Some x.
Proof.
  unfold dyn. intros. destruct (fcopy f); split; intros; try discriminate.
  - apply Nat.eqb_eq in H. congruence.
  - inversion H. apply Nat.eqb_refl.
Qed.

Section With.
Variables (d : bool).

Lemma canon_spec : forall al rk st A x f, R d al rk st A -> frame st x = Some f ->
  exists g, frame st (canon st x) = Some g /\ isc (canon st x) g
    /\ al (canon st x) = al x /\ rk (canon st x) = rk x
    /\ option_map al (fpar g) = option_map al (fpar f)
    /\ sameshape (fbind f) (fbind g)
    /\ nth_error (frames A) (al x)
       = Some (mka (absb (fbind g)) (fexp g) (option_map al (fpar g))).
Proof.
  intros al rk st A x f H F.
  assert (K : sameshape (fbind f) (fbind f)) by (destruct (fbind f); simpl; auto).
  unfold canon. rewrite F.
  destruct (fcopy f) as [c|] eqn:C.
  - destruct (Nat.eq_dec c x).
    + subst c. exists f. repeat split; auto; try (right; auto).
      apply (r_can d al rk st A); auto. right; auto.
    + destruct (r_cop _ _ _ _ _ H x f c F C n) as (g & G & GC & E & P & S & X & Y).
      exists g. repeat split; auto; try (right; auto).
      rewrite <- E. apply (r_can d al rk st A); auto. right; auto.
  - exists f. repeat split; auto; try (left; auto).
    apply (r_can d al rk st A); auto. left; auto.
Qed.

Lemma bget_bound : forall al rk st A b s, R d al rk st A ->
  bget (tabs st) b s = match bound A (absb b) s with Some v => v | None => VUnbound end.
Proof.
  intros. unfold bound, place, bget. destruct b; simpl.
  - rewrite assoc_pos. destruct (pos s l); auto.
    destruct (option_map snd (nth_error l n)) as [[]|]; auto.
  - rewrite (r_tabs _ _ _ _ _ H). destruct (atab A t s) as [[]|]; auto.
Qed.

Lemma bound_not_unbound : forall A b s, bound A b s <> Some VUnbound.
Proof.
  unfold bound. intros. destruct (place A b s) as [[]|]; try discriminate.
  destruct b; discriminate.
Qed.

Lemma bprobe_place : forall al rk st A b s, R d al rk st A ->
  bprobe (tabs st) b s = match place A (absb b) s with Some _ => true | None => false end.
Proof.
  intros. unfold place, bprobe. destruct b; simpl.
  - rewrite assoc_pos. destruct (pos s l); auto.
  - rewrite (r_tabs _ _ _ _ _ H). auto.
Qed.

Lemma symeval_look : forall al rk st A, R d al rk st A -> forall k k' x f s,
  frame st x = Some f -> isc x f -> rk x < k -> rk x < k' ->
  symeval k st x s = look k' A (al x) s.
Proof.
  intros al rk st A H. induction k; intros k' x f s F I L L'; [lia|].
  destruct k'; [lia|]. simpl. rewrite F, (r_can _ _ _ _ _ H x f F I). simpl.
  rewrite (bget_bound al rk st A) by auto.
  pose proof (bound_not_unbound A (absb (fbind f)) s) as U.
  destruct (bound A (absb (fbind f)) s) as [[]|]; auto; try congruence.
  destruct (fpar f) as [p|] eqn:P; simpl; auto.
  destruct (r_par _ _ _ _ _ H x f p F P) as (g & G & K & _).
  destruct (canon_spec _ _ _ _ p g H G) as (g' & G' & I' & E & K' & _).
  rewrite <- E. apply (IHk k' (canon st p) g'); auto; lia.
Qed.

Lemma look_ok : forall al rk st A x f s, R d al rk st A -> frame st x = Some f ->
  symeval (length (heap st)) st (canon st x) s = look (length (frames A)) A (al x) s.
Proof.
  intros. destruct (canon_spec _ _ _ _ x f H H0) as (g & G & I & E & K & _).
  rewrite <- E. destruct (r_rk _ _ _ _ _ H _ _ G).
  apply (symeval_look al rk st A H _ _ _ g); auto.
Qed.

Lemma lexref_ok : forall al rk st A, R d al rk st A -> forall up x f a,
  frame st x = Some f -> lexref st x up a = aref A (al x) up a.
Proof.
  intros al rk st A H. induction up; intros x f a F;
    destruct (canon_spec _ _ _ _ x f H F) as (g & G & I & E & K & _ & _ & N);
    simpl; rewrite G, N; simpl.
  - destruct (fbind g); auto.
  - destruct (fpar g) as [p|] eqn:P; simpl; auto.
    destruct (r_par _ _ _ _ _ H _ g p G P) as (g' & G' & _).
    eapply IHup; eauto.
Qed.

(* ------------------------------------------------------------------ *)
(* Preservation *)

(* Another content for a frame that is not itself superseded. *)
Lemma R_upd : forall al rk st A x f b e, R d al rk st A ->
  frame st x = Some f -> isc x f -> sameshape (fbind f) b ->
  (e = fexp f \/ exists t, b = BHash t) ->
  R d al rk (set_frame st x (Some (mkframe b e (fpar f) (fcopy f))))
    (with_frame A (al x) (mka (absb b) e (option_map al (fpar f)))).
Proof.
  intros al rk st A x f b e H F I S X.
  pose proof (frame_lt _ _ _ F) as L.
  assert (LA : al x < length (frames A))
    by (apply nth_error_Some; rewrite (r_can _ _ _ _ _ H x f F I); discriminate).
  assert (HF : forall y, frame (set_frame st x (Some (mkframe b e (fpar f) (fcopy f)))) y
     = if y =? x then Some (mkframe b e (fpar f) (fcopy f)) else frame st y)
    by (intros; apply frame_set; auto).
  assert (OLD : forall y g, frame (set_frame st x (Some (mkframe b e (fpar f) (fcopy f)))) y
     = Some g -> exists g0, frame st y = Some g0 /\ fpar g = fpar g0 /\ fcopy g = fcopy g0
        /\ sameshape (fbind g0) (fbind g) /\ (fexp g = fexp g0 \/ y = x)
        /\ (y <> x -> g = g0) /\ (y = x -> fbind g = b /\ fexp g = e)).
  { intros y g. rewrite HF. destruct (Nat.eqb_spec y x); intros Y.
    - subst. inversion Y; subst. simpl. exists f.
      split; [exact F|]. repeat split; auto. intros Z; exfalso; auto.
    - exists g. repeat split; auto; try contradiction.
      destruct (fbind g); simpl; auto. }
  assert (NEW : forall y g0, frame st y = Some g0 ->
     exists g, frame (set_frame st x (Some (mkframe b e (fpar f) (fcopy f)))) y
     = Some g /\ fpar g = fpar g0 /\ fcopy g = fcopy g0
        /\ sameshape (fbind g0) (fbind g) /\ (y <> x -> g = g0)).
  { intros y g0 Y. rewrite HF. destruct (Nat.eqb_spec y x).
    - subst. rewrite F in Y. inversion Y; subst. eexists. split; [reflexivity|].
      repeat split; auto; intros Z; exfalso; auto.
    - exists g0. repeat split; auto. destruct (fbind g0); simpl; auto. }
  destruct H. constructor; simpl; auto.
  - intros h y Hy. simpl in Hy. unfold ahandle in *. simpl.
    rewrite (r_hs0 h y Hy). rewrite HF.
    destruct (Nat.eqb_spec y x); auto. subst. rewrite F. unfold dyn. simpl. auto.
  - intros h y Hy. rewrite upd_length. eauto.
  - intros y g Y IY. rewrite nth_upd.
    destruct (Nat.eqb_spec (al y) (al x)).
    + assert (y = x).
      { destruct (OLD _ _ Y) as (g0 & G0 & P0 & C0 & _).
        eapply r_inj0; eauto. unfold isc in *. rewrite <- C0. auto. }
      subst y. rewrite HF, Nat.eqb_refl in Y. inversion Y; subst. simpl.
      replace (al x <? length (frames A)) with true; auto.
      symmetry. apply Nat.ltb_lt. auto.
    + rewrite HF in Y. destruct (Nat.eqb_spec y x); [congruence|].
      apply r_can0; auto.
  - intros y g c Y C NE. destruct (OLD _ _ Y) as (g0 & G0 & P0 & C0 & S0 & E0 & _).
    rewrite C0 in C. destruct (r_cop0 y g0 c G0 C NE) as (k & K & KC & Ka & Kp & Ks & Ke & Kr).
    assert (y <> x). { intros ->. rewrite F in G0. inversion G0; subst.
      destruct I as [I|I]; congruence. }
    destruct (Nat.eq_dec c x).
    + subst c. rewrite F in K. inversion K; subst k.
      eexists. split; [rewrite HF, Nat.eqb_refl; reflexivity|]. simpl.
      repeat split; auto.
      * rewrite Kp, P0. auto.
      * revert S Ks S0. unfold sameshape.
        destruct (fbind g0), (fbind g), (fbind f), b; intros; try contradiction; congruence.
      * destruct X as [->|[t ->]]; auto.
        exfalso. revert S Ks. unfold sameshape.
        destruct (r_sta0 y g0 G0) as (_ & _ & (l & El) & _); [congruence|].
        rewrite El. destruct (fbind f); auto.
    + exists k. rewrite HF. destruct (Nat.eqb_spec c x); [contradiction|].
      repeat split; auto.
      * rewrite Kp, P0. auto.
      * revert Ks S0. unfold sameshape.
        destruct (fbind g0), (fbind g), (fbind k); intros; try contradiction; congruence.
  - intros y z g k Y Z IY IZ E.
    destruct (OLD _ _ Y) as (g0 & G0 & _ & C0 & _).
    destruct (OLD _ _ Z) as (k0 & K0 & _ & C1 & _).
    eapply r_inj0; eauto; unfold isc in *; congruence.
  - intros y g p Y P. destruct (OLD _ _ Y) as (g0 & G0 & P0 & C0 & _).
    rewrite P0 in P. destruct (r_par0 y g0 p G0 P) as (k & K & K1 & K2 & K3).
    destruct (NEW _ _ K) as (k' & K' & _ & C' & _). exists k'.
    rewrite C0, C'. auto.
  - intros y g Y. rewrite !upd_length. destruct (OLD _ _ Y) as (g0 & G0 & _). eauto.
  - intros y g Y C. destruct (OLD _ _ Y) as (g0 & G0 & P0 & C0 & S0 & E0 & E1 & E2).
    rewrite C0 in C. destruct (r_sta0 y g0 G0 C) as (Q1 & Q2 & (l & Q3) & Q4).
    repeat split; auto.
    + rewrite Q3 in S0. destruct (fbind g); eauto. contradiction.
    + destruct (Nat.eq_dec y x); [|rewrite (E1 n); auto].
      subst y. rewrite F in G0. inversion G0; subst g0.
      destruct (E2 eq_refl) as [Eb Ee]. rewrite Ee.
      destruct X as [->|[t Xt]]; auto. exfalso. rewrite Xt, Q3 in S. auto.
  - intros h Hh. destruct (r_stkok0 h Hh) as (y & g & Y1 & Y2 & Y3).
    destruct (NEW _ _ Y2) as (g' & G' & _ & C' & _). exists y, g'.
    rewrite C'. auto.
  - intros y g l Y El D. destruct (OLD _ _ Y) as (g0 & G0 & _ & _ & S0 & _).
    rewrite El in S0. destruct (fbind g0) eqn:B0; [|contradiction].
    simpl in S0. rewrite <- S0. eauto.
Qed.

(* Other content for a table. *)
Lemma R_tab : forall al rk st A t l g, R d al rk st A ->
  (forall s, assoc s l = g s) -> R d al rk (set_tab st t l) (with_tab A t g).
Proof.
  intros. destruct H. constructor; auto.
  - simpl. rewrite !upd_length. auto.
  - intros u s. unfold set_tab. cbn [tabs]. rewrite table_upd, atab_upd, r_tlen0.
    destruct ((u =? t) && (t <? length (atabs A))); auto.
Qed.

Lemma R_tab_new : forall al rk st A, R d al rk st A ->
  R d al rk (mkc (heap st) (tabs st ++ [[]]) (stk st) (hs st))
    (mks (frames A) (atabs A ++ [empty_tab]) (astk A) (ahs A)).
Proof.
  intros. destruct H. constructor; auto.
  - simpl. rewrite !app_length, r_tlen0. auto.
  - intros t s. specialize (r_tabs0 t s). unfold table, atab in *. simpl.
    rewrite nth_err in *. rewrite !nth_snoc, r_tlen0.
    destruct (t =? length (atabs A)); auto.
Qed.

(* A pointer handed out again, to something on the heap. *)
Lemma R_give : forall al rk st A x f, R d al rk st A -> frame st x = Some f ->
  fcopy f = Some x ->
  R d al rk (fst (give st x)) (fst (agive A true (al x)))
  /\ snd (give st x) = snd (agive A true (al x)).
Proof.
  intros al rk st A x f H F C.
  assert (HN : forall h y, nth_error (hs st ++ [x]) h = Some y ->
     nth_error (hs st) h = Some y \/ (h = length (hs st) /\ y = x)).
  { intros h y. rewrite nth_snoc. destruct (Nat.eqb_spec h (length (hs st)));
      intros E; auto. right. inversion E; auto. }
  split; [|simpl; rewrite (r_hlen _ _ _ _ _ H); auto].
  unfold give, agive. simpl. destruct H. constructor; auto; simpl.
  - rewrite !app_length, r_hlen0. auto.
  - intros h y Hy. unfold ahandle in *. simpl. rewrite nth_err, nth_snoc, <- r_hlen0.
    change (frame (mkc (heap st) (tabs st) (stk st) (hs st ++ [x])) y)
      with (frame st y).
    destruct (HN _ _ Hy) as [E|[E1 E2]].
    + assert (h < length (hs st)) by (apply nth_error_Some; congruence).
      destruct (Nat.eqb_spec h (length (hs st))); [lia|].
      rewrite <- (r_hs0 h y E), nth_err. auto.
    + subst. rewrite Nat.eqb_refl, F. f_equal. f_equal. symmetry. apply dyn_spec. auto.
  - intros h y Hy. destruct (HN _ _ Hy) as [E|[E1 E2]]; eauto.
    subst. eapply frame_lt; eauto.
  - intros y g Y NC. destruct (r_sta0 y g Y NC) as ((h & Q0 & Q1) & Q2 & Q3).
    repeat split; try tauto.
    + exists h. split; auto. apply nth_error_app_l. auto.
    + intros h1 h2 E1 E2.
      change (frame (mkc (heap st) (tabs st) (stk st) (hs st ++ [x])) y)
        with (frame st y) in Y.
      destruct (HN _ _ E1) as [D1|[D1 D1']]; destruct (HN _ _ E2) as [D2|[D2 D2']];
        try (subst y; rewrite F in Y; inversion Y; subst; congruence); eauto.
  - assert (SK : forall h, In h (stk st) -> exists y, nth_error (hs st) h = Some y).
    { intros h Hh. destruct (r_stkok0 h Hh) as (y & g & Y1 & _). eauto. }
    clear - r_desc0 SK. induction r_desc0; constructor.
    + apply IHr_desc0. intros; apply SK; simpl; auto.
    + rewrite Forall_forall in *. intros b Hb y y' E1 E2.
      destruct (SK a) as (z & Z); [simpl; auto|].
      destruct (SK b) as (z' & Z'); [simpl; auto|].
      rewrite (nth_error_app_l _ _ [x] _ _ Z) in E1.
      rewrite (nth_error_app_l _ _ [x] _ _ Z') in E2.
      apply (H b Hb); congruence.
  - intros h Hh. destruct (r_stkok0 h Hh) as (y & g & Y1 & Y2). exists y, g.
    split; auto. apply nth_error_app_l. auto.
Qed.

End With.

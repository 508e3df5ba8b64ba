(* EnvModel against EnvSpec, concluded: every tame operation, and whole
   programs. *)

From Coq Require Import List Arith Bool Lia ZifyBool Sorted.
Import ListNotations.
From Verif Require Import EnvModel EnvSpec EnvProofs EnvProofs2.

Section With.
Variables (d : bool).

Lemma handle_some : forall al rk st A h x, R d al rk st A ->
  handle st h = Some x ->
  exists f, nth_error (hs st) h = Some x /\ frame st x = Some f
    /\ ahandle A h = Some (dyn x f, al x).
Proof.
  unfold handle. intros. destruct (nth_error (hs st) h) as [y|] eqn:E; [|discriminate].
  destruct (frame st y) as [f|] eqn:F; [|discriminate]. inversion H0; subst y.
  exists f. ands; auto. rewrite (r_hs _ _ _ _ _ H h x E), F. auto.
Qed.

Lemma handle_none : forall al rk st A h, R d al rk st A ->
  handle st h = None -> ahandle A h = None.
Proof.
  unfold handle. intros. destruct (nth_error (hs st) h) as [y|] eqn:E.
  - destruct (frame st y) as [f|] eqn:F; [discriminate|].
    rewrite (r_hs _ _ _ _ _ H h y E), F. auto.
  - unfold ahandle. apply nth_overflow. rewrite <- (r_hlen _ _ _ _ _ H).
    apply nth_error_None. auto.
Qed.

Lemma handle_opt_ok : forall al rk st A h, R d al rk st A ->
  match handle_opt st h with
  | None => ahandle_opt A h = None
  | Some p => ahandle_opt A h = Some (option_map al p)
              /\ forall x, p = Some x -> exists f, frame st x = Some f
  end.
Proof.
  intros. destruct h as [h|]; simpl; [|split; auto; discriminate].
  destruct (handle st h) as [x|] eqn:E.
  - destruct (handle_some _ _ _ _ _ _ H E) as (f & _ & F & ->). split; auto.
    intros y Y. inversion Y; subst. eauto.
  - rewrite (handle_none _ _ _ _ _ H E). auto.
Qed.

Lemma R_copy_env : forall al rk st A x f, R d al rk st A ->
  frame st x = Some f ->
  exists al' rk' g,
    R d al' rk' (fst (copy_env st x)) A
    /\ frame (fst (copy_env st x)) (snd (copy_env st x)) = Some g
    /\ fcopy g = Some (snd (copy_env st x))
    /\ al' (snd (copy_env st x)) = al x.
Proof.
  intros. destruct (R_dynamic d A (length (heap st)) al rk st x f H H0)
    as (al' & rk' & g & Q1 & Q2 & Q3 & Q4 & _).
  - apply (r_rk _ _ _ _ _ H x f H0).
  - exists al', rk', g. ands; auto.
Qed.

Lemma R_copy_opt : forall al rk st A o, R d al rk st A ->
  (forall x, o = Some x -> exists f, frame st x = Some f) ->
  exists al' rk',
    R d al' rk' (fst (copy_opt st o)) A
    /\ option_map al' (snd (copy_opt st o)) = option_map al o
    /\ (forall p, snd (copy_opt st o) = Some p -> exists g,
          frame (fst (copy_opt st o)) p = Some g /\ fcopy g = Some p)
    /\ (forall z, z < length (heap st) -> al' z = al z)
    /\ (forall z g, frame st z = Some g -> exists g',
          frame (fst (copy_opt st o)) z = Some g'
          /\ fbind g' = fbind g /\ fexp g' = fexp g /\ fpar g' = fpar g
          /\ (fcopy g <> None -> fcopy g' = fcopy g)).
Proof.
  intros. destruct o as [x|]; simpl.
  - destruct (H0 x eq_refl) as (f & F). unfold copy_env.
    destruct (R_dynamic d A (length (heap st)) al rk st x f H F)
      as (al' & rk' & g & Q1 & Q2 & Q3 & Q4 & Q5 & Q6 & Q7 & Q8 & Q9 & Q10).
    + apply (r_rk _ _ _ _ _ H x f F).
    + destruct (dynamic_lexenv (length (heap st)) st x) as [st1 c]. simpl in *.
      exists al', rk'. ands; auto.
      * intros p E. inversion E; subst. eauto.
      * intros z Hz. apply Q7. auto.
      * intros z k K. destruct (Q10 z k K) as (k' & W1 & W2 & W3 & W4 & W5 & W6).
        exists k'. ands; auto.
  - exists al, rk. ands; auto; try discriminate. intros z g G. exists g. ands; auto.
Qed.

(* kno_bind_value *)
Lemma R_bind : forall al rk st A x f s v, R d al rk st A -> frame st x = Some f ->
  R d al rk (fst (bind_value st x s v)) (fst (write A (al x) s v))
  /\ oret (snd (bind_value st x s v)) = snd (write A (al x) s v)
  /\ snd (bind_value st x s v) <> RNone.
Proof.
  intros al rk st A x f s v H F.
  destruct (canon_spec d _ _ _ _ x f H F) as (g & G & I & E & _ & _ & _ & N).
  unfold bind_value, write. rewrite G, N. cbn [abind aexp apar].
  destruct (fbind g) as [l|t] eqn:B; cbn [absb].
  - unfold schema_store. pose proof (assoc_some_pos s l) as AP.
    destruct (assoc s l) eqn:AS.
    + destruct (proj1 AP) as (i & Pi); [eauto|]. rewrite Pi.
      rewrite (assoc_set_put s v l i Pi).
      assert (K : R d al rk
        (set_frame st (canon st x) (Some (mkframe (BSchema (put l i v)) (fexp g) (fpar g) (fcopy g))))
        (with_frame A (al x) (mka (ALex (put l i v)) (fexp g) (option_map al (fpar g))))).
      { rewrite <- E. apply (R_upd d al rk st A (canon st x) g (BSchema (put l i v))); auto.
        rewrite B. simpl. rewrite put_fst. auto. }
      unfold export_too. cbn [aexp]. destruct (fexp g) as [t|]; simpl; ands; auto; try discriminate.
      apply R_tab; auto. intros s'. rewrite assoc_assoc_set.
      rewrite <- !(r_tabs _ _ _ _ _ K). auto.
    + destruct (pos s l) eqn:Pi.
      * destruct (proj2 AP) as (w & W); [eauto|]. discriminate.
      * simpl. ands; auto. discriminate.
  - assert (K : R d al rk (set_tab st t (hash_store (table (tabs st) t) s v))
        (with_tab A t (fun s' => if s' =? s then Some v else atab A t s'))).
    { apply R_tab; auto. intros s'. rewrite assoc_hash_store.
      rewrite (r_tabs _ _ _ _ _ H). auto. }
    unfold export_too. cbn [aexp]. destruct (fexp g) as [t'|]; simpl; ands; auto; try discriminate.
    apply R_tab; auto. intros s'. rewrite assoc_assoc_set.
    rewrite <- !(r_tabs _ _ _ _ _ K). auto.
Qed.

Lemma ro_imported : forall f p, read_only f = imported (mka (absb (fbind f)) (fexp f) p).
Proof.
  intros. unfold read_only, imported. simpl. destruct (fbind f); auto.
Qed.

(* kno_assign_value *)
Lemma assign_home : forall al rk st A, R d al rk st A -> forall k k' x f s v,
  frame st x = Some f -> isc x f -> rk x < k -> rk x < k' ->
  match home k' A (al x) s with
  | None => assign_value k st x s v = (st, RNone)
  | Some b => exists y g, al y = b /\ frame st y = Some g /\ isc y g
      /\ assign_value k st x s v
         = if read_only g then (st, RError) else bind_value st y s v
  end.
Proof.
  intros al rk st A H. induction k; intros k' x f s v F I L L'; [lia|].
  destruct k'; [lia|]. simpl. rewrite F, (r_can _ _ _ _ _ H x f F I). simpl.
  rewrite (bprobe_place d al rk st A) by auto.
  destruct (place A (absb (fbind f)) s).
  - exists x, f. auto.
  - destruct (fpar f) as [p|] eqn:P; simpl; auto.
    destruct (r_par _ _ _ _ _ H x f p F P) as (g & G & K & _).
    destruct (canon_spec d _ _ _ _ p g H G) as (g' & G' & I' & E & K' & _).
    rewrite <- E. apply (IHk k' (canon st p) g'); auto; lia.
Qed.

(* set! *)
Lemma R_set : forall al rk st A x f s v, R d al rk st A -> frame st x = Some f ->
  R d al rk (fst (set_bang st x s v)) (fst (aset A (al x) s v))
  /\ oret (snd (set_bang st x s v)) = snd (aset A (al x) s v).
Proof.
  intros al rk st A x f s v H F. unfold set_bang, aset.
  destruct (canon_spec d _ _ _ _ x f H F) as (g & G & I & E & _).
  destruct (r_rk _ _ _ _ _ H _ _ G).
  pose proof (assign_home al rk st A H (length (heap st)) (length (frames A))
                (canon st x) g s v G I H0 H1) as K.
  rewrite E in K. destruct (home (length (frames A)) A (al x) s) as [b|].
  - destruct K as (y & k & Yb & Yk & IY & ->).
    rewrite <- Yb, (r_can _ _ _ _ _ H y k Yk IY).
    rewrite <- (ro_imported k). destruct (read_only k); [simpl; auto|].
    destruct (R_bind al rk st A y k s v H Yk) as (Q1 & Q2 & Q3).
    destruct (bind_value st y s v) as [st1 r]. simpl in *.
    destruct r; simpl; auto. congruence.
  - rewrite K. destruct (R_bind al rk st A x f s v H F) as (Q1 & Q2 & Q3). auto.
Qed.

(* A frame pushed on the stack. *)
Lemma R_push : forall al rk st A par l, R d al rk st A ->
  (forall p, par = Some p -> exists g, frame st p = Some g) ->
  (d = true -> NoDup (map fst l)) ->
  let n := length (heap st) in
  let al' := ext n (length (frames A)) al in
  let rk' := ext n (match par with None => 0 | Some p => S (rk p) end) rk in
  R d al' rk'
    (mkc (heap st ++ [Some (mkframe (BSchema l) None par None)]) (tabs st)
       (length (hs st) :: stk st) (hs st ++ [n]))
    (mks (frames A ++ [mka (ALex l) None (option_map al par)]) (atabs A)
       (length (ahs A) :: astk A) (ahs A ++ [Some (false, length (frames A))])).
Proof.
  intros al rk st A par l H P ND n al' rk'.
  set (st' := mkc _ _ _ _).
  assert (HF : forall y, frame st' y
    = if y =? n then Some (mkframe (BSchema l) None par None) else frame st y)
    by (intros; apply (frame_new st)).
  assert (LT : forall y f, frame st y = Some f -> y <> n)
    by (intros y f Y E; apply frame_lt in Y; unfold n in E; lia).
  assert (AL : forall y f, frame st y = Some f -> al y < length (frames A)).
  { intros y f Y. destruct (canon_spec d _ _ _ _ y f H Y) as (g & _ & _ & E & _ & _ & _ & Q).
    apply nth_error_Some. congruence. }
  assert (PE : forall y g, frame st y = Some g ->
    option_map al' (fpar g) = option_map al (fpar g))
    by (intros; eapply map_ext_par; eauto).
  assert (PM : option_map al' par = option_map al par).
  { destruct par as [p|]; simpl; auto. f_equal. apply ext_other.
    destruct (P p eq_refl) as (g & G). eauto. }
  assert (HN : forall h y, nth_error (hs st ++ [n]) h = Some y ->
     (nth_error (hs st) h = Some y /\ y <> n) \/ (h = length (hs st) /\ y = n)).
  { intros h y. rewrite nth_snoc. destruct (Nat.eqb_spec h (length (hs st)));
      intros E; [right; inversion E; auto|left]. split; auto.
    intros ->. apply (r_hb _ _ _ _ _ H) in E. unfold n in E. lia. }
  destruct H eqn:HH; clear HH. constructor; simpl; auto.
  - rewrite r_stk, r_hlen. auto.
  - rewrite !app_length, r_hlen. auto.
  - intros h y Hy. rewrite HF. destruct (HN _ _ Hy) as [[E NE]|[E1 E2]].
    + destruct (Nat.eqb_spec y n); [congruence|].
      assert (h < length (hs st)) by (apply nth_error_Some; congruence).
      pose proof (r_hs _ _ E) as Q. unfold ahandle in *. simpl.
      rewrite app_nth1 by lia. rewrite Q. unfold al'. rewrite ext_other by auto. auto.
    + subst. rewrite Nat.eqb_refl. unfold ahandle. simpl.
      rewrite app_nth2, r_hlen, Nat.sub_diag by lia. simpl. unfold dyn. simpl.
      unfold al'. rewrite ext_same. auto.
  - intros h y Hy. rewrite app_length. simpl. destruct (HN _ _ Hy) as [[E NE]|[E1 E2]].
    + apply r_hb in E. lia.
    + subst. unfold n. lia.
  - intros y f Y I. rewrite HF in Y. destruct (Nat.eqb_spec y n).
    + subst y. inversion Y; subst f. simpl. unfold al' at 1. rewrite ext_same.
      rewrite PM. rewrite nth_snoc, Nat.eqb_refl. auto.
    + unfold al' at 1. rewrite ext_other by auto. apply nth_error_app_l.
      rewrite (PE _ _ Y). apply r_can; auto.
  - intros y f c Y C NE. rewrite HF in Y. destruct (Nat.eqb_spec y n).
    + subst. inversion Y; subst f. simpl in C. congruence.
    + destruct (r_cop y f c Y C NE) as (g & G & Q1 & Q2 & Q3 & Q4 & Q5 & Q6).
      exists g. rewrite HF. pose proof (LT _ _ G).
      destruct (Nat.eqb_spec c n); [congruence|].
      rewrite (PE _ _ Y), (PE _ _ G).
      unfold al', rk'. rewrite !(ext_other n) by auto. ands; auto.
  - intros y z f g Y Z IY IZ E. rewrite HF in Y, Z.
    destruct (Nat.eqb_spec y n), (Nat.eqb_spec z n); subst; auto.
    + unfold al' in E. rewrite ext_same, ext_other in E by auto.
      pose proof (AL _ _ Z). lia.
    + unfold al' in E. rewrite ext_same, ext_other in E by auto.
      pose proof (AL _ _ Y). lia.
    + unfold al' in E. rewrite !ext_other in E by auto. eauto.
  - intros y f p Y Q. rewrite HF in Y. destruct (Nat.eqb_spec y n).
    + subst y. inversion Y; subst f. simpl in *.
      destruct (P p Q) as (g & G). exists g. rewrite HF.
      pose proof (LT _ _ G). destruct (Nat.eqb_spec p n); [congruence|].
      ands; auto; try discriminate.
      * unfold rk'. rewrite ext_other, ext_same by auto. subst par. lia.
      * intros _. apply frame_lt in G. unfold n. lia.
    + destruct (r_par y f p Y Q) as (g & G & Q1 & Q2 & Q3). exists g. rewrite HF.
      pose proof (LT _ _ G). destruct (Nat.eqb_spec p n); [congruence|].
      unfold rk'. rewrite !ext_other by auto. auto.
  - intros y f Y. rewrite !app_length. simpl. rewrite HF in Y.
    destruct (Nat.eqb_spec y n).
    + subst y. unfold rk'. rewrite ext_same. destruct par as [p|]; [|lia].
      destruct (P p eq_refl) as (g & G). destruct (r_rk p g G). lia.
    + unfold rk'. rewrite !ext_other by auto. destruct (r_rk y f Y). lia.
  - intros y f Y C. rewrite HF in Y. destruct (Nat.eqb_spec y n).
    + subst y. inversion Y; subst f. simpl. ands; eauto.
      * exists (length (hs st)). split; auto. rewrite nth_snoc, Nat.eqb_refl. auto.
      * intros h h' E E'. destruct (HN _ _ E) as [[_ W]|[W _]]; [congruence|].
        destruct (HN _ _ E') as [[_ W']|[W' _]]; congruence.
    + destruct (r_sta y f Y C) as ((h & Q0 & Q1) & Q2 & Q3 & Q4). ands; auto.
      * exists h. split; auto. apply nth_error_app_l. auto.
      * intros h1 h2 E1 E2. destruct (HN _ _ E1) as [[W1 _]|[_ W1]]; [|congruence].
        destruct (HN _ _ E2) as [[W2 _]|[_ W2]]; [|congruence]. eauto.
  - assert (SK : forall h, In h (stk st) -> exists y, nth_error (hs st) h = Some y).
    { intros h Hh. destruct (r_stkok h Hh) as (y & g & Y1 & _). eauto. }
    constructor.
    + clear - r_desc SK. induction r_desc; constructor.
      * apply IHr_desc. intros; apply SK; simpl; auto.
      * rewrite Forall_forall in *. intros b Hb y y' E1 E2.
        destruct (SK a) as (z & Z); [simpl; auto|].
        destruct (SK b) as (z' & Z'); [simpl; auto|].
        rewrite (nth_error_app_l _ _ [n] _ _ Z) in E1.
        rewrite (nth_error_app_l _ _ [n] _ _ Z') in E2.
        apply (H b Hb); congruence.
    + rewrite Forall_forall. intros b Hb y y' E1 E2.
      rewrite nth_snoc, Nat.eqb_refl in E1. inversion E1; subst y.
      destruct (SK b Hb) as (z & Z). rewrite (nth_error_app_l _ _ [n] _ _ Z) in E2.
      inversion E2; subst. apply r_hb in Z. unfold n. lia.
  - intros h [Hh|Hh].
    + subst h. eexists n, _. rewrite HF, Nat.eqb_refl, nth_snoc, Nat.eqb_refl.
      ands; auto. simpl. discriminate.
    + destruct (r_stkok h Hh) as (y & f & Q1 & Q2 & Q3). exists y, f.
      rewrite HF. pose proof (LT _ _ Q2). destruct (Nat.eqb_spec y n); [congruence|].
      ands; auto. apply nth_error_app_l. auto.
  - intros y f k Y B D. rewrite HF in Y. destruct (Nat.eqb_spec y n).
    + inversion Y; subst f. simpl in B. inversion B; subst. auto.
    + eapply r_nodup; eauto.
Qed.

(* Nothing that lives has the innermost stack frame as its parent. *)
Lemma top_no_child : forall al rk st A h r x y f, R d al rk st A ->
  stk st = h :: r -> nth_error (hs st) h = Some x ->
  frame st y = Some f -> fpar f <> Some x.
Proof.
  intros al rk st A h r x y f H S X Y P.
  destruct (r_stkok _ _ _ _ _ H h) as (x' & g & X' & G & GC).
  { rewrite S. simpl. auto. }
  rewrite X in X'. inversion X'; subst x'. clear X'.
  destruct (r_par _ _ _ _ _ H y f x Y P) as (g' & G' & Q1 & Q2 & Q3).
  rewrite G in G'. inversion G'; subst g'. specialize (Q3 GC).
  assert (YC : fcopy f <> Some y) by auto.
  destruct (r_sta _ _ _ _ _ H y f Y YC) as ((h' & I' & X') & _).
  pose proof (r_desc _ _ _ _ _ H) as D. rewrite S in *.
  apply StronglySorted_inv in D. destruct D as [_ H3].
  rewrite Forall_forall in H3. destruct I' as [I'|I'].
  - subst h'. rewrite X in X'. inversion X'; subst. lia.
  - specialize (H3 h' I' x y X X'). lia.
Qed.

Lemma R_pop : forall al rk st A h r x, R d al rk st A ->
  stk st = h :: r -> nth_error (hs st) h = Some x ->
  R d al rk (mkc (upd (heap st) x None) (tabs st) r (hs st))
    (mks (frames A) (atabs A) r (upd (ahs A) h None)).
Proof.
  intros al rk st A h r x H S X.
  set (st' := mkc _ _ _ _).
  assert (IH : In h (stk st)) by (rewrite S; simpl; auto).
  destruct (r_stkok _ _ _ _ _ H h IH) as (x' & g & X' & G & GC).
  rewrite X in X'. inversion X'; subst x'. clear X'.
  pose proof (r_sta _ _ _ _ _ H x g G GC) as (_ & UX & _).
  pose proof (frame_lt _ _ _ G) as XL.
  assert (HF : forall y, frame st' y = if y =? x then None else frame st y)
    by (intros; apply (frame_set st); auto).
  assert (OLD : forall y f, frame st' y = Some f -> frame st y = Some f /\ y <> x).
  { intros y f. rewrite HF. destruct (Nat.eqb_spec y x); [discriminate|auto]. }
  assert (LH : h < length (hs st)) by (apply nth_error_Some; congruence).
  assert (NC : forall y f, frame st y = Some f -> fpar f <> Some x)
    by (intros; eapply top_no_child; eauto).
  destruct H eqn:HH; clear HH. constructor; simpl; auto.
  - rewrite upd_length. auto.
  - intros h' y Hy. pose proof (r_hs _ _ Hy) as Q. unfold ahandle in *. simpl.
    rewrite nth_err, nth_upd, HF.
    assert (h' < length (hs st)) by (apply nth_error_Some; congruence).
    destruct (Nat.eqb_spec h' h).
    + subst h'. rewrite X in Hy. inversion Hy; subst y.
      rewrite Nat.eqb_refl. destruct (h <? length (ahs A)); auto.
    + destruct (Nat.eqb_spec y x); [exfalso; subst; eauto|].
      rewrite <- Q, nth_err. auto.
  - intros h' y Hy. rewrite upd_length. eauto.
  - intros y f Y I. destruct (OLD _ _ Y). auto.
  - intros y f c Y C NE. destruct (OLD _ _ Y) as [Y1 Y2].
    destruct (r_cop y f c Y1 C NE) as (k & K & Q1 & Q).
    exists k. rewrite HF. destruct (Nat.eqb_spec c x).
    + subst c. rewrite G in K. inversion K; subst. congruence.
    + auto.
  - intros y z f k Y Z. destruct (OLD _ _ Y), (OLD _ _ Z). eauto.
  - intros y f p Y P. destruct (OLD _ _ Y) as [Y1 Y2].
    destruct (r_par y f p Y1 P) as (k & K & Q). exists k. rewrite HF.
    destruct (Nat.eqb_spec p x); [|split; auto]. subst p. exfalso. exact (NC _ _ Y1 P).
  - intros y f Y. destruct (OLD _ _ Y). rewrite upd_length. eauto.
  - intros y f Y C. destruct (OLD _ _ Y) as [Y1 Y2].
    destruct (r_sta y f Y1 C) as ((h' & Q0 & Q1) & Q2). split; auto.
    exists h'. split; auto. rewrite S in Q0. destruct Q0; auto. subst. congruence.
  - rewrite S in r_desc. inversion r_desc. auto.
  - intros h' Hh. destruct (r_stkok h') as (y & f & Q1 & Q2 & Q3).
    { rewrite S. simpl. auto. }
    exists y, f. rewrite HF. ands; auto. destruct (Nat.eqb_spec y x); auto.
    subst y. rewrite S in r_desc. apply StronglySorted_inv in r_desc.
    destruct r_desc as [_ FA]. rewrite Forall_forall in FA.
    specialize (FA h' Hh x x X Q1). lia.
  - intros y f l Y. destruct (OLD _ _ Y). eauto.
Qed.

Lemma do_values_eq : forall us l l', map fst l = map fst l' -> ~ In None us ->
  do_values l us = do_vals l' us.
Proof.
  induction us; intros [|[s v] l] [|[s' v'] l'] E NI; simpl in *; try discriminate; auto.
  inversion E; subst. destruct a; [|exfalso; apply NI; auto].
  f_equal. apply IHus; auto.
Qed.

Lemma do_vals_fst : forall us l, length us = length l ->
  map fst (do_vals l us) = map fst l.
Proof.
  induction us; intros [|[s v] l] E; simpl in *; try discriminate; auto.
  f_equal. apply IHus. lia.
Qed.

Lemma R_do : forall al rk st A h r x f g us l l0, R d al rk st A ->
  stk st = h :: r -> nth_error (hs st) h = Some x -> frame st x = Some f ->
  fbind f = BSchema l0 -> fexp f = None ->
  nth_error (frames A) (al x) = Some g -> abind g = ALex l -> aexp g = None ->
  apar g = option_map al (fpar f) ->
  map fst l0 = map fst l -> length us = length l -> ~ In None us ->
  exists al',
  R d al' rk
    (set_frame st x (Some (mkframe (BSchema (do_values l0 us)) (fexp f) (fpar f) None)))
    (mks (frames A ++ [mka (ALex (do_vals l us)) (aexp g) (apar g)]) (atabs A)
       (astk A) (upd (ahs A) h (Some (false, length (frames A))))).
Proof.
  intros al rk st A h r x f g us l l0 H S X F B FE N GB GE GP M LU NI.
  rewrite (do_values_eq us l0 l M NI). rewrite FE, GE, GP.
  set (st' := set_frame _ _ _).
  assert (IH : In h (stk st)) by (rewrite S; simpl; auto).
  destruct (r_stkok _ _ _ _ _ H h IH) as (x' & f' & X' & G & GC).
  rewrite X in X'. inversion X'; subst x'. clear X'.
  rewrite F in G. inversion G; subst f'. clear G.
  pose proof (r_sta _ _ _ _ _ H x f F GC) as (_ & UX & _).
  pose proof (frame_lt _ _ _ F) as XL.
  assert (NC : forall y f, frame st y = Some f -> fpar f <> Some x)
    by (intros; eapply top_no_child; eauto).
  assert (HF : forall y, frame st' y = if y =? x
     then Some (mkframe (BSchema (do_vals l us)) None (fpar f) None) else frame st y)
    by (intros; apply (frame_set st); auto).
  set (al' := ext x (length (frames A)) al).
  exists al'.
  assert (PE : forall y g, frame st y = Some g ->
    option_map al' (fpar g) = option_map al (fpar g)).
  { intros y k K. pose proof (NC _ _ K). destruct (fpar k); simpl; auto.
    f_equal. apply ext_other. congruence. }
  assert (AL : forall y f, frame st y = Some f -> al y < length (frames A)).
  { intros y k K. destruct (canon_spec d _ _ _ _ y k H K) as (k' & _ & _ & E & _ & _ & _ & Q).
    apply nth_error_Some. congruence. }
  assert (LH : h < length (hs st)) by (apply nth_error_Some; congruence).
  destruct H eqn:HH; clear HH. constructor; simpl; auto.
  - rewrite upd_length. auto.
  - intros h' y Hy. pose proof (r_hs _ _ Hy) as Q. unfold ahandle in *. simpl.
    rewrite nth_err, nth_upd, HF.
    destruct (Nat.eqb_spec h' h).
    + subst h'. rewrite X in Hy. inversion Hy; subst y.
      rewrite Nat.eqb_refl. rewrite <- r_hlen.
      destruct (Nat.ltb_spec h (length (hs st))); [|lia]. unfold dyn. simpl.
      unfold al'. rewrite ext_same. auto.
    + destruct (Nat.eqb_spec y x); [exfalso; subst; eauto|].
      unfold al'. rewrite ext_other by auto. rewrite <- Q, nth_err. auto.
  - intros h' y Hy. rewrite upd_length. eauto.
  - intros y k Y I. rewrite HF in Y. destruct (Nat.eqb_spec y x).
    + subst y. inversion Y; subst k. simpl. rewrite (PE _ _ F).
      unfold al'. rewrite ext_same, nth_snoc, Nat.eqb_refl. auto.
    + rewrite (PE _ _ Y). unfold al'. rewrite ext_other by auto.
      apply nth_error_app_l. auto.
  - intros y k c Y C NE. rewrite HF in Y. destruct (Nat.eqb_spec y x).
    + inversion Y; subst k. simpl in C. discriminate.
    + destruct (r_cop y k c Y C NE) as (k' & K & Q1 & Q2 & Q3 & Q4 & Q5 & Q6).
      assert (c <> x) by (intros ->; rewrite F in K; inversion K; subst; congruence).
      exists k'. rewrite HF. destruct (Nat.eqb_spec c x); [congruence|].
      rewrite (PE _ _ Y), (PE _ _ K). unfold al'. rewrite !ext_other by auto.
      ands; auto.
  - intros y z k k' Y Z IY IZ E. rewrite HF in Y, Z.
    destruct (Nat.eqb_spec y x), (Nat.eqb_spec z x); subst; auto; unfold al' in E.
    + rewrite ext_same, ext_other in E by auto. pose proof (AL _ _ Z). lia.
    + rewrite ext_same, ext_other in E by auto. pose proof (AL _ _ Y). lia.
    + rewrite !ext_other in E by auto. eauto.
  - intros y k p Y P. rewrite HF in Y.
    assert (PX : p <> x).
    { destruct (Nat.eqb_spec y x).
      - inversion Y; subst k. simpl in P. intros ->. eapply NC; eauto.
      - intros ->. eapply NC; eauto. }
    destruct (Nat.eqb_spec y x).
    + subst y. inversion Y; subst k. simpl in *.
      destruct (r_par x f p F P) as (k & K & Q1 & Q2 & Q3). exists k.
      rewrite HF. destruct (Nat.eqb_spec p x); [congruence|]. ands; auto. discriminate.
    + destruct (r_par y k p Y P) as (k' & K & Q). exists k'.
      rewrite HF. destruct (Nat.eqb_spec p x); [congruence|]. auto.
  - intros y k Y. rewrite upd_length, app_length. simpl. rewrite HF in Y.
    destruct (Nat.eqb_spec y x).
    + subst. destruct (r_rk x f F). lia.
    + destruct (r_rk y k Y). lia.
  - intros y k Y C. rewrite HF in Y. destruct (Nat.eqb_spec y x).
    + subst y. inversion Y; subst k. destruct (r_sta x f F GC) as (Q1 & Q2 & _).
      simpl. ands; eauto.
    + eauto.
  - intros h' Hh. destruct (r_stkok h' Hh) as (y & k & Q1 & Q2 & Q3).
    exists y. rewrite HF. destruct (Nat.eqb_spec y x).
    + eexists. ands; eauto. simpl. discriminate.
    + eauto.
  - intros y k l1 Y B1 D. rewrite HF in Y. destruct (Nat.eqb_spec y x).
    + inversion Y; subst k. simpl in B1. inversion B1; subst l1.
      rewrite do_vals_fst by auto. rewrite <- M. eauto.
    + eauto.
Qed.

End With.

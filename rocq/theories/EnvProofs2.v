(* EnvModel against EnvSpec, continued: new frames, copies, pops, loops. *)

From Coq Require Import List Arith Bool Lia ZifyBool Sorted.
Import ListNotations.
From Verif Require Import EnvModel EnvSpec EnvProofs.

Definition ext (n a : nat) (f : nat -> nat) : nat -> nat :=
  fun z => if z =? n then a else f z.

Lemma ext_same : forall n a f, ext n a f n = a.
Proof. intros. unfold ext. rewrite Nat.eqb_refl. auto. Qed.

Lemma ext_other : forall n a f z, z <> n -> ext n a f z = f z.
Proof. intros. unfold ext. destruct (Nat.eqb_spec z n); congruence. Qed.

Ltac ands := repeat match goal with |- _ /\ _ => split end.

Section With.
Variables (d : bool).

Lemma par_lt : forall al rk st A x f p, R d al rk st A -> frame st x = Some f ->
  fpar f = Some p -> p < length (heap st).
Proof.
  intros. destruct (r_par _ _ _ _ _ H x f p H0 H1) as (g & G & _).
  eapply frame_lt; eauto.
Qed.

Lemma map_ext_par : forall al rk st A x f a, R d al rk st A ->
  frame st x = Some f ->
  option_map (ext (length (heap st)) a al) (fpar f) = option_map al (fpar f).
Proof.
  intros. destruct (fpar f) eqn:P; simpl; auto. f_equal. apply ext_other.
  pose proof (par_lt _ _ _ _ _ _ _ H H0 P). lia.
Qed.

(* A new frame on the heap: a module or an import. *)
Lemma R_newdyn : forall al rk st A b e par, R d al rk st A ->
  (forall p, par = Some p -> exists g, frame st p = Some g /\ fcopy g = Some p) ->
  (forall l, b <> BSchema l) ->
  let n := length (heap st) in
  let al' := ext n (length (frames A)) al in
  let rk' := ext n (match par with None => 0 | Some p => S (rk p) end) rk in
  R d al' rk' (new_frame st (mkframe b e par (Some n)))
    (mks (frames A ++ [mka (absb b) e (option_map al par)])
       (atabs A) (astk A) (ahs A)).
Proof.
  intros al rk st A b e par H P NS n al' rk'.
  assert (HF : forall y, frame (new_frame st (mkframe b e par (Some n))) y
    = if y =? n then Some (mkframe b e par (Some n)) else frame st y)
    by (intros; apply frame_new).
  assert (LT : forall y f, frame st y = Some f -> y <> n)
    by (intros y f Y E; apply frame_lt in Y; unfold n in E; lia).
  assert (FR : forall a f, nth_error (frames A) a = Some f ->
     nth_error (frames A ++ [mka (absb b) e (option_map al par)]) a = Some f)
    by (intros; apply nth_error_app_l; auto).
  assert (AL : forall y f, frame st y = Some f -> al y < length (frames A)).
  { intros y f Y. destruct (canon_spec d _ _ _ _ y f H Y) as (g & _ & _ & E & _ & _ & _ & Q).
    apply nth_error_Some. congruence. }
  assert (PE : forall y g, frame st y = Some g ->
    option_map al' (fpar g) = option_map al (fpar g))
    by (intros; eapply map_ext_par; eauto).
  assert (PM : option_map al' par = option_map al par).
  { destruct par as [p|]; simpl; auto. f_equal. apply ext_other.
    destruct (P p eq_refl) as (g & G & _). eauto. }
  destruct H eqn:HH; clear HH. constructor; simpl; auto.
  - intros h y Hy. specialize (r_hb _ _ Hy). rewrite HF.
    destruct (Nat.eqb_spec y n); [unfold n in *; lia|].
    unfold ahandle in *. simpl. rewrite (r_hs _ _ Hy).
    unfold al'. rewrite ext_other by auto. auto.
  - intros h y Hy. specialize (r_hb _ _ Hy). rewrite app_length. simpl. lia.
  - intros y f Y I. rewrite HF in Y. destruct (Nat.eqb_spec y n).
    + subst y. inversion Y; subst f. simpl. unfold al' at 1. rewrite ext_same.
      rewrite PM. rewrite nth_snoc, Nat.eqb_refl. auto.
    + unfold al' at 1. rewrite ext_other by auto. apply FR.
      rewrite (PE _ _ Y). apply r_can; auto.
  - intros y f c Y C NE. rewrite HF in Y. destruct (Nat.eqb_spec y n).
    + subst. inversion Y; subst f. simpl in C. congruence.
    + destruct (r_cop y f c Y C NE) as (g & G & Q1 & Q2 & Q3 & Q4 & Q5 & Q6).
      exists g. rewrite HF. pose proof (LT _ _ G).
      destruct (Nat.eqb_spec c n); [congruence|].
      rewrite (PE _ _ Y), (PE _ _ G).
      unfold al', rk'. rewrite !(ext_other n) by auto.
      repeat split; auto.
  - intros y z f g Y Z IY IZ E. rewrite HF in Y, Z.
    destruct (Nat.eqb_spec y n), (Nat.eqb_spec z n); subst; auto.
    + unfold al' in E. rewrite ext_same, ext_other in E by auto.
      pose proof (AL _ _ Z). lia.
    + unfold al' in E. rewrite ext_same, ext_other in E by auto.
      pose proof (AL _ _ Y). lia.
    + unfold al' in E. rewrite !ext_other in E by auto. eauto.
  - intros y f p Y Q. rewrite HF in Y. destruct (Nat.eqb_spec y n).
    + subst y. inversion Y; subst f. simpl in *.
      destruct (P p Q) as (g & G & GC). exists g. rewrite HF.
      pose proof (LT _ _ G). destruct (Nat.eqb_spec p n); [congruence|].
      repeat split; auto; try congruence.
      unfold rk'. rewrite ext_other, ext_same by auto. subst par. lia.
    + destruct (r_par y f p Y Q) as (g & G & Q1 & Q2 & Q3). exists g. rewrite HF.
      pose proof (LT _ _ G). destruct (Nat.eqb_spec p n); [congruence|].
      unfold rk'. rewrite !ext_other by auto. auto.
  - intros y f Y. rewrite !app_length. simpl. rewrite HF in Y.
    destruct (Nat.eqb_spec y n).
    + subst y. unfold rk'. rewrite ext_same. destruct par as [p|]; [|lia].
      destruct (P p eq_refl) as (g & G & _). destruct (r_rk p g G). lia.
    + unfold rk'. rewrite !ext_other by auto. destruct (r_rk y f Y). lia.
  - intros y f Y C. rewrite HF in Y. destruct (Nat.eqb_spec y n).
    + subst y. inversion Y; subst f. simpl in C. congruence.
    + eapply r_sta; eauto.
  - intros h Hh. destruct (r_stkok h Hh) as (y & f & Q1 & Q2 & Q3). exists y, f.
    rewrite HF. pose proof (LT _ _ Q2). destruct (Nat.eqb_spec y n); [congruence|auto].
  - intros y f l Y B D. rewrite HF in Y. destruct (Nat.eqb_spec y n).
    + inversion Y; subst f. simpl in B. exfalso. eapply NS; eauto.
    + eapply r_nodup; eauto.
Qed.

(* The copy of one frame whose parent has already been copied. *)
Lemma R_copy1 : forall al rk st A x f par, R d al rk st A ->
  frame st x = Some f -> fcopy f = None ->
  match fpar f, par with
  | None, None => True
  | Some p, Some c => al c = al p /\ rk c = rk p
                      /\ exists g, frame st c = Some g /\ fcopy g = Some c
  | _, _ => False
  end ->
  let n := length (heap st) in
  R d (ext n (al x) al) (ext n (rk x) rk)
    (set_frame (new_frame st (mkframe (fbind f) (fexp f) par (Some n))) x
       (Some (mkframe (fbind f) (fexp f) (fpar f) (Some n)))) A.
Proof.
  intros al rk st A x f par H F C0 P n.
  set (al' := ext n (al x) al). set (rk' := ext n (rk x) rk).
  set (st' := set_frame _ _ _).
  pose proof (frame_lt _ _ _ F) as XL.
  assert (XN : x <> n) by (unfold n; lia).
  assert (HF : forall y, frame st' y
    = if y =? x then Some (mkframe (fbind f) (fexp f) (fpar f) (Some n))
      else if y =? n then Some (mkframe (fbind f) (fexp f) par (Some n))
      else frame st y).
  { intros. unfold st'. rewrite frame_set, frame_new; auto.
    simpl. rewrite app_length. simpl. lia. }
  assert (LT : forall y f, frame st y = Some f -> y <> n)
    by (intros y g Y E; apply frame_lt in Y; unfold n in E; lia).
  assert (OLD : forall y g, frame st' y = Some g -> y <> n ->
    exists g0, frame st y = Some g0 /\ fbind g = fbind g0 /\ fexp g = fexp g0 /\
      fpar g = fpar g0 /\ (y <> x -> g = g0) /\ (y = x -> fcopy g = Some n)).
  { intros y g. rewrite HF. destruct (Nat.eqb_spec y x); intros Y NY.
    - subst. inversion Y; subst. exists f. simpl. repeat split; auto.
      intros Z; exfalso; auto.
    - destruct (Nat.eqb_spec y n); [contradiction|]. exists g. repeat split; auto.
      contradiction. }
  assert (NEW : forall y g0, frame st y = Some g0 -> exists g, frame st' y = Some g
     /\ fpar g = fpar g0 /\ (y <> x -> g = g0) /\ (y = x -> fcopy g = Some n)).
  { intros y g0 Y. rewrite HF. destruct (Nat.eqb_spec y x).
    - subst. rewrite F in Y. inversion Y; subst. eexists. split; [reflexivity|].
      simpl. repeat split; auto. intros Z; exfalso; auto.
    - pose proof (LT _ _ Y). destruct (Nat.eqb_spec y n); [contradiction|].
      exists g0. repeat split; auto. contradiction. }
  assert (PE : forall y g, frame st y = Some g ->
    option_map al' (fpar g) = option_map al (fpar g))
    by (intros; eapply map_ext_par; eauto).
  assert (PM : option_map al' par = option_map al (fpar f)).
  { destruct (fpar f), par; simpl; try contradiction; auto.
    destruct P as (P1 & P2 & g & G & _). rewrite <- P1. f_equal.
    apply ext_other. eauto. }
  assert (SH : forall b, sameshape b b) by (destruct b; simpl; auto).
  assert (CX : fcopy f <> Some x) by congruence.
  pose proof (r_sta _ _ _ _ _ H x f F CX) as (SX1 & SX2 & (lx & SX3) & SX4).
  pose proof (r_can _ _ _ _ _ H x f F (or_introl C0)) as AX.
  destruct H eqn:HH; clear HH. constructor; simpl; auto.
  - intros h y Hy. simpl in Hy. specialize (r_hb _ _ Hy). rewrite HF.
    rewrite (r_hs _ _ Hy).
    destruct (Nat.eqb_spec y x).
    + subst y. rewrite F. unfold dyn. simpl. rewrite C0.
      unfold al'. rewrite ext_other by auto.
      destruct (Nat.eqb_spec n x); [congruence|auto].
    + destruct (Nat.eqb_spec y n); [unfold n in *; lia|].
      unfold al'. rewrite ext_other by auto. auto.
  - intros h y Hy. specialize (r_hb _ _ Hy). rewrite upd_length, app_length. simpl. lia.
  - intros y g Y I. destruct (Nat.eq_dec y n).
    + subst y. rewrite HF in Y. destruct (Nat.eqb_spec n x); [congruence|].
      rewrite Nat.eqb_refl in Y. inversion Y; subst g. simpl.
      unfold al' at 1. rewrite ext_same, PM. auto.
    + destruct (Nat.eq_dec y x).
      * subst y. rewrite HF, Nat.eqb_refl in Y. inversion Y; subst g.
        unfold isc in I. simpl in I. destruct I as [I|I]; [discriminate|congruence].
      * destruct (OLD _ _ Y n0) as (g0 & G0 & _ & _ & _ & E & _). specialize (E n1). subst g0.
        unfold al' at 1. rewrite ext_other by auto.
        rewrite (PE _ _ G0). apply r_can; auto.
  - intros y g c Y C NE. destruct (Nat.eq_dec y n).
    + subst y. rewrite HF in Y. destruct (Nat.eqb_spec n x); [congruence|].
      rewrite Nat.eqb_refl in Y. inversion Y; subst g. simpl in C. congruence.
    + destruct (OLD _ _ Y n0) as (g0 & G0 & Eb & Ee & Ep & E & E').
      destruct (Nat.eq_dec y x).
      * subst y. rewrite F in G0. inversion G0; subst g0. rewrite (E' eq_refl) in C.
        inversion C; subst c. eexists.
        rewrite HF. destruct (Nat.eqb_spec n x); [congruence|]. rewrite Nat.eqb_refl.
        split; [reflexivity|]. simpl. rewrite Eb, Ep, PM, (PE _ _ F).
        unfold al', rk'. rewrite !ext_same, !(ext_other n) by auto.
        repeat split; auto.
      * specialize (E n1). subst g0.
        destruct (r_cop y g c G0 C NE) as (k & K & Q1 & Q2 & Q3 & Q4 & Q5 & Q6).
        pose proof (LT _ _ K).
        assert (c <> x) by (intros ->; rewrite F in K; inversion K; subst; congruence).
        exists k. rewrite HF. destruct (Nat.eqb_spec c x); [congruence|].
        destruct (Nat.eqb_spec c n); [congruence|].
        rewrite (PE _ _ G0), (PE _ _ K).
        unfold al', rk'. rewrite !(ext_other n) by auto. repeat split; auto.
  - intros y z g k Y Z IY IZ E.
    assert (Q : forall w gw, frame st' w = Some gw -> isc w gw -> w <> n ->
                frame st w = Some gw /\ w <> x).
    { intros w gw W IW NW. destruct (OLD _ _ W NW) as (g0 & G0 & _ & _ & _ & E1 & E2).
      destruct (Nat.eq_dec w x).
      - subst w. specialize (E2 eq_refl). destruct IW; congruence.
      - rewrite (E1 n0). auto. }
    destruct (Nat.eq_dec y n), (Nat.eq_dec z n); subst; auto.
    + destruct (Q _ _ Z IZ n0) as [Z0 Z1].
      unfold al' in E. rewrite ext_same, ext_other in E by auto.
      exfalso. apply Z1. symmetry. eapply r_inj; eauto. left; auto.
    + destruct (Q _ _ Y IY n0) as [Y0 Y1].
      unfold al' in E. rewrite ext_same, ext_other in E by auto.
      exfalso. apply Y1. eapply r_inj; eauto. left; auto.
    + destruct (Q _ _ Y IY n0) as [Y0 Y1]. destruct (Q _ _ Z IZ n1) as [Z0 Z1].
      unfold al' in E. rewrite !ext_other in E by auto. eauto.
  - intros y g p Y Q. destruct (Nat.eq_dec y n).
    + subst y. rewrite HF in Y. destruct (Nat.eqb_spec n x); [congruence|].
      rewrite Nat.eqb_refl in Y. inversion Y; subst g. simpl in *. subst par.
      destruct (fpar f) as [p0|] eqn:Ep; [|contradiction].
      destruct P as (P1 & P2 & g & G & GC).
      destruct (r_par x f p0 F Ep) as (g0 & G0 & K1 & K2 & K3).
      assert (p <> x) by (intros ->; rewrite F in G; inversion G; subst; congruence).
      pose proof (LT _ _ G).
      exists g. rewrite HF. destruct (Nat.eqb_spec p x); [congruence|].
      destruct (Nat.eqb_spec p n); [congruence|].
      repeat split; auto; try congruence.
      unfold rk'. rewrite ext_other, ext_same by auto. lia.
    + destruct (OLD _ _ Y n0) as (g0 & G0 & Eb & Ee & Ep & E & E').
      rewrite Ep in Q. destruct (r_par y g0 p G0 Q) as (k & K & Q1 & Q2 & Q3).
      destruct (NEW _ _ K) as (k' & K' & Kp & KE & KE'). exists k'.
      pose proof (LT _ _ K). unfold rk'. rewrite !ext_other by auto.
      repeat split; auto.
      * intros GC. assert (y <> x).
        { intros ->. rewrite (E' eq_refl) in GC. congruence. }
        rewrite (E H1) in GC. specialize (Q2 GC).
        assert (p <> x) by (intros ->; rewrite F in K; inversion K; subst; congruence).
        rewrite (KE H2). auto.
      * intros KC. apply Q3. destruct (Nat.eq_dec p x).
        { subst. rewrite F in K. inversion K; subst. auto. }
        rewrite (KE n1) in KC. auto.
  - intros y g Y. rewrite upd_length, app_length. simpl.
    destruct (Nat.eq_dec y n).
    + subst y. unfold rk'. rewrite ext_same. destruct (r_rk x f F). lia.
    + destruct (OLD _ _ Y n0) as (g0 & G0 & _). unfold rk'. rewrite ext_other by auto.
      destruct (r_rk y g0 G0). lia.
  - intros y g Y C. destruct (Nat.eq_dec y n).
    + subst y. rewrite HF in Y. destruct (Nat.eqb_spec n x); [congruence|].
      rewrite Nat.eqb_refl in Y. inversion Y; subst g. simpl in C. congruence.
    + destruct (OLD _ _ Y n0) as (g0 & G0 & Eb & Ee & Ep & E & E').
      destruct (Nat.eq_dec y x).
      * subst y. rewrite F in G0. inversion G0; subst g0. rewrite Eb, Ee. eauto.
      * rewrite <- (E n1) in G0. eapply r_sta; eauto.
  - intros h Hh. destruct (r_stkok h Hh) as (y & g & Q1 & Q2 & Q3).
    destruct (NEW _ _ Q2) as (g' & G' & _ & E & E'). exists y, g'.
    repeat split; auto. destruct (Nat.eq_dec y x).
    + subst. rewrite (E' eq_refl). congruence.
    + rewrite (E n0). auto.
  - intros y g l Y B D. destruct (Nat.eq_dec y n).
    + subst y. rewrite HF in Y. destruct (Nat.eqb_spec n x); [congruence|].
      rewrite Nat.eqb_refl in Y. inversion Y; subst g. simpl in B. eauto.
    + destruct (OLD _ _ Y n0) as (g0 & G0 & Eb & _). rewrite Eb in B. eauto.
Qed.

(* kno_dynamic_lexenv. *)
Lemma R_dynamic : forall A k al rk st x f, R d al rk st A ->
  frame st x = Some f -> rk x < k ->
  exists al' rk' g,
    R d al' rk' (fst (dynamic_lexenv k st x)) A
    /\ frame (fst (dynamic_lexenv k st x)) (snd (dynamic_lexenv k st x)) = Some g
    /\ fcopy g = Some (snd (dynamic_lexenv k st x))
    /\ al' (snd (dynamic_lexenv k st x)) = al x
    /\ rk' (snd (dynamic_lexenv k st x)) = rk x
    /\ length (heap st) <= length (heap (fst (dynamic_lexenv k st x)))
    /\ (forall z, z < length (heap st) -> al' z = al z /\ rk' z = rk z)
    /\ hs (fst (dynamic_lexenv k st x)) = hs st
    /\ tabs (fst (dynamic_lexenv k st x)) = tabs st
    /\ (forall z g, frame st z = Some g -> exists g',
          frame (fst (dynamic_lexenv k st x)) z = Some g'
          /\ fbind g' = fbind g /\ fexp g' = fexp g /\ fpar g' = fpar g
          /\ (fcopy g <> None -> fcopy g' = fcopy g)
          /\ (rk x < rk z -> fcopy g' = fcopy g)).
Proof.
  intros A. induction k; intros al rk st x f H F L; [lia|].
  simpl. rewrite F. destruct (fcopy f) as [c|] eqn:C.
  - simpl. exists al, rk.
    destruct (Nat.eq_dec c x).
    + subst c. exists f. ands; auto. intros z gz Z; exists gz; ands; auto.
    + destruct (r_cop _ _ _ _ _ H x f c F C n) as (g & G & Q1 & Q2 & Q3 & Q4 & Q5 & Q6).
      exists g. ands; auto. intros z gz Z; exists gz; ands; auto.
  - destruct (fpar f) as [p|] eqn:P.
    + destruct (r_par _ _ _ _ _ H x f p F P) as (g & G & K1 & _).
      destruct (IHk al rk st p g H G) as
        (al1 & rk1 & g1 & R1 & G1 & C1 & A1 & B1 & L1 & Z1 & H1 & T1 & O1); [lia|].
      destruct (dynamic_lexenv k st p) as [st1 c]. simpl in *.
      destruct (O1 x f F) as (f1 & F1 & E1 & E2 & E3 & E4 & E5).
      pose proof (frame_lt _ _ _ F) as XL. pose proof (frame_lt _ _ _ G) as PL.
      (* the parent's copying cannot have copied x, whose rank is larger *)
      assert (C2 : fcopy f1 = None) by (rewrite E5; auto).
      assert (FC : fcopy f1 = None -> exists al' rk' g,
        R d al' rk' (set_frame (new_frame st1 (mkframe (fbind f) (fexp f) (Some c)
            (Some (length (heap st1))))) x
          (Some (mkframe (fbind f) (fexp f) (Some p) (Some (length (heap st1)))))) A
        /\ frame (set_frame (new_frame st1 (mkframe (fbind f) (fexp f) (Some c)
            (Some (length (heap st1))))) x
          (Some (mkframe (fbind f) (fexp f) (Some p) (Some (length (heap st1))))))
            (length (heap st1)) = Some g
        /\ fcopy g = Some (length (heap st1))
        /\ al' (length (heap st1)) = al x /\ rk' (length (heap st1)) = rk x
        /\ (forall z, z < length (heap st) -> al' z = al z /\ rk' z = rk z)
        /\ (forall z g, frame st z = Some g -> exists g',
          frame (set_frame (new_frame st1 (mkframe (fbind f) (fexp f) (Some c)
            (Some (length (heap st1))))) x
          (Some (mkframe (fbind f) (fexp f) (Some p) (Some (length (heap st1)))))) z = Some g'
          /\ fbind g' = fbind g /\ fexp g' = fexp g /\ fpar g' = fpar g
          /\ (fcopy g <> None -> fcopy g' = fcopy g)
          /\ (rk x < rk z -> fcopy g' = fcopy g))).
      { intros FN. exists (ext (length (heap st1)) (al1 x) al1),
               (ext (length (heap st1)) (rk1 x) rk1).
        eexists. rewrite <- E1, <- E2. rewrite P in E3. rewrite <- E3.
        split; [apply R_copy1; auto; rewrite E3;
                ands; eauto; [rewrite A1; symmetry; apply Z1; auto
                                     |rewrite B1; symmetry; apply Z1; auto]|].
        assert (XL1 : x < length (heap (new_frame st1
           (mkframe (fbind f1) (fexp f1) (Some c) (Some (length (heap st1))))))).
        { simpl. rewrite app_length. simpl. lia. }
        split.
        { rewrite frame_set, frame_new by auto.
          destruct (Nat.eqb_spec (length (heap st1)) x); [lia|].
          rewrite Nat.eqb_refl. reflexivity. }
        simpl. rewrite !ext_same. destruct (Z1 x XL) as [Z2 Z3].
        ands; auto.
        - intros z Hz. rewrite !ext_other by lia. apply Z1. auto.
        - intros z k0 K0. rewrite frame_set, frame_new by auto.
          pose proof (frame_lt _ _ _ K0).
          destruct (Nat.eqb_spec z x).
          + subst z. rewrite F in K0. inversion K0; subst k0.
            eexists. split; [reflexivity|]. simpl. ands; auto; try congruence. intros; lia.
          + destruct (Nat.eqb_spec z (length (heap st1))); [lia|].
            destruct (O1 z k0 K0) as (k1 & O2 & O3 & O4 & O5 & O6 & O7).
            exists k1. ands; auto. intros. apply O7. lia. }
      destruct (FC C2) as (al' & rk' & g' & Q1 & Q2 & Q3 & Q4 & Q5 & Q6 & Q7).
        exists al', rk', g'. ands; auto; try (apply Q6; auto).
        rewrite upd_length, app_length. simpl. lia.
    + simpl. exists (ext (length (heap st)) (al x) al), (ext (length (heap st)) (rk x) rk).
      assert (XL1 : x < length (heap (new_frame st
           (mkframe (fbind f) (fexp f) None (Some (length (heap st))))))).
      { pose proof (frame_lt _ _ _ F). simpl. rewrite app_length. simpl. lia. }
      pose proof (frame_lt _ _ _ F) as XL.
      eexists. rewrite <- P.
      split; [apply R_copy1; auto; rewrite P; auto|].
      rewrite P. split.
      { rewrite frame_set, frame_new by auto.
        destruct (Nat.eqb_spec (length (heap st)) x); [lia|].
        rewrite Nat.eqb_refl. reflexivity. }
      simpl. rewrite !ext_same. ands; auto.
      * rewrite upd_length, app_length. simpl. lia.
      * intros z Hz. rewrite !ext_other by lia; auto.
      * intros z k0 K0. rewrite frame_set, frame_new by auto.
        pose proof (frame_lt _ _ _ K0).
        destruct (Nat.eqb_spec z x).
        { subst z. rewrite F in K0. inversion K0; subst k0.
          eexists. split; [reflexivity|]. simpl. ands; auto; try congruence. intros; lia. }
        destruct (Nat.eqb_spec z (length (heap st))); [lia|]. exists k0; ands; auto.
Qed.

End With.

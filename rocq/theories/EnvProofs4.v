(* EnvModel against EnvSpec: modules, the step theorem, whole programs. *)

From Coq Require Import List Arith Bool Lia ZifyBool Sorted.
Import ListNotations.
From Verif Require Import EnvModel EnvSpec EnvProofs EnvProofs2 EnvProofs3.

Section With.
Variables (d : bool).

Lemma hash_dyn : forall al rk st A x f t, R d al rk st A -> frame st x = Some f ->
  fbind f = BHash t -> fcopy f = Some x.
Proof.
  intros al rk st A x f t H F B.
  assert (D : fcopy f = Some x \/ fcopy f <> Some x).
  { destruct (fcopy f) as [c|]; [|right; discriminate].
    destruct (Nat.eq_dec c x); [left | right]; congruence. }
  destruct D as [D|D]; auto.
  destruct (r_sta _ _ _ _ _ H x f F D) as (_ & _ & (l & E) & _). congruence.
Qed.

Lemma module_ok : forall al rk st A x f, R d al rk st A -> frame st x = Some f ->
  is_module st x = amodule A (al x).
Proof.
  intros al rk st A x f H F. unfold is_module, amodule. rewrite F.
  destruct (canon_spec d _ _ _ _ x f H F) as (g & G & I & E & _ & _ & S & N).
  rewrite N. simpl. destruct (fbind f) as [l|t] eqn:B.
  - destruct (fbind g); simpl in *; auto. contradiction.
  - assert (canon st x = x).
    { unfold canon. rewrite F, (hash_dyn _ _ _ _ _ _ _ H F B). auto. }
    rewrite H0, F in G. inversion G; subst g. rewrite B. simpl.
    f_equal. unfold read_only, imported. simpl. rewrite B. auto.
Qed.

Lemma module_hash : forall st x f, frame st x = Some f -> is_module st x = true ->
  exists t, fbind f = BHash t.
Proof.
  unfold is_module. intros. rewrite H in H0. destruct (fbind f); [discriminate|eauto].
Qed.

Lemma R_exports : forall al rk st A x f t, R d al rk st A -> frame st x = Some f ->
  fbind f = BHash t ->
  R d al rk (fst (get_exports st x)) (fst (aexports A (al x)))
  /\ snd (get_exports st x) = snd (aexports A (al x))
  /\ (forall z g, frame st z = Some g -> exists g',
        frame (fst (get_exports st x)) z = Some g' /\ fbind g' = fbind g
        /\ fpar g' = fpar g /\ fcopy g' = fcopy g)
  /\ length (heap (fst (get_exports st x))) = length (heap st).
Proof.
  intros al rk st A x f t H F B.
  assert (I : isc x f) by (right; eapply hash_dyn; eauto).
  unfold get_exports, aexports. rewrite F, (r_can _ _ _ _ _ H x f F I). simpl.
  destruct (fexp f) as [u|] eqn:E; simpl.
  - ands; auto. intros z g G. exists g. auto.
  - ands.
    + pose proof (R_tab_new d _ _ _ _ H) as H'.
      pose proof (R_upd d _ _ _ _ x f (fbind f) (Some (length (tabs st))) H' F I) as K.
      unfold set_frame, with_frame in K. simpl in K.
      rewrite <- (r_tlen _ _ _ _ _ H). apply K; auto.
      * rewrite B. simpl. auto.
      * rewrite B. eauto.
    + apply (r_tlen _ _ _ _ _ H).
    + intros z g G. pose proof (frame_lt _ _ _ F) as L.
      pose proof (frame_set st x (Some (mkframe (fbind f) (Some (length (tabs st)))
         (fpar f) (fcopy f))) z L) as FS.
      unfold frame at 1 in FS. simpl in FS. unfold frame at 1. simpl. rewrite FS.
      destruct (Nat.eqb_spec z x).
      * subst z. rewrite F in G. inversion G; subst. eexists. ands; eauto.
      * exists g. auto.
    + apply upd_length.
Qed.

Lemma R_module : forall al rk st A o, R d al rk st A ->
  (forall x, o = Some x -> exists f, frame st x = Some f) ->
  exists al' rk',
    R d al' rk' (fst (make_module st o))
      (mks (frames A ++ [mka (AMod (length (atabs A))) None (option_map al o)])
         (atabs A ++ [empty_tab]) (astk A) (ahs A))
    /\ al' (snd (make_module st o)) = length (frames A)
    /\ exists g, frame (fst (make_module st o)) (snd (make_module st o)) = Some g
         /\ fcopy g = Some (snd (make_module st o)).
Proof.
  intros al rk st A o H P. unfold make_module.
  destruct (R_copy_opt d al rk st A o H P) as (al1 & rk1 & Q1 & Q2 & Q3 & _).
  destruct (copy_opt st o) as [st1 p]. simpl in *.
  pose proof (R_tab_new d _ _ _ _ Q1) as Q1'.
  pose proof (R_newdyn d al1 rk1 _ _ (BHash (length (tabs st1))) None p Q1') as K.
  simpl in K. unfold new_frame in K. simpl in K.
  rewrite <- Q2, <- (r_tlen _ _ _ _ _ Q1).
  eexists _, _. split.
  - apply K; auto. discriminate.
  - split; [apply ext_same|]. eexists.
    unfold frame. simpl. rewrite nth_snoc, Nat.eqb_refl. split; [reflexivity|]. auto.
Qed.

Lemma R_import : forall al rk st A o t, R d al rk st A ->
  (forall x, o = Some x -> exists f, frame st x = Some f) ->
  exists al' rk',
    R d al' rk' (fst (make_export_env st t o))
      (mks (frames A ++ [mka (AMod t) (Some t) (option_map al o)])
         (atabs A) (astk A) (ahs A))
    /\ al' (snd (make_export_env st t o)) = length (frames A)
    /\ exists g, frame (fst (make_export_env st t o)) (snd (make_export_env st t o)) = Some g
         /\ fcopy g = Some (snd (make_export_env st t o)).
Proof.
  intros al rk st A o t H P. unfold make_export_env.
  destruct (R_copy_opt d al rk st A o H P) as (al1 & rk1 & Q1 & Q2 & Q3 & _).
  destruct (copy_opt st o) as [st1 p]. simpl in *.
  pose proof (R_newdyn d al1 rk1 _ _ (BHash t) (Some t) p Q1 Q3) as K.
  simpl in K. rewrite <- Q2. eexists _, _. split.
  - apply K. discriminate.
  - split; [apply ext_same|]. eexists. rewrite frame_new, Nat.eqb_refl.
    split; [reflexivity|]. auto.
Qed.

Lemma uses_ok : forall al rk st A t, R d al rk st A -> forall k k' x f,
  frame st x = Some f -> fcopy f = Some x -> rk x < k -> rk x < k' ->
  uses_bindings k st x t = auses k' A (al x) t.
Proof.
  intros al rk st A t H. induction k; intros k' x f F C L L'; [lia|].
  destruct k'; [lia|]. simpl.
  rewrite F, (r_can _ _ _ _ _ H x f F (or_intror C)). simpl.
  assert (K : forall p, fpar f = Some p -> uses_bindings k st p t = auses k' A (al p) t).
  { intros p P. destruct (r_par _ _ _ _ _ H x f p F P) as (g & G & Q1 & Q2 & _).
    apply (IHk k' p g); auto; lia. }
  destruct (fbind f); simpl.
  - destruct (fpar f); simpl; auto.
  - destruct (t0 =? t); simpl; auto. destruct (fpar f); simpl; auto.
Qed.

(* An import put between a module and its parent. *)
Lemma R_insert : forall al rk st A x f t t0, R d al rk st A ->
  frame st x = Some f -> fbind f = BHash t0 ->
  let n := length (heap st) in
  let al' := ext n (length (frames A)) al in
  let rk' := ext n (rk x) (fun z => if rk x <=? rk z then S (rk z) else rk z) in
  R d al' rk'
    (set_frame (new_frame st (mkframe (BHash t) (Some t) (fpar f) (Some n))) x
       (Some (mkframe (fbind f) (fexp f) (Some n) (fcopy f))))
    (mks (upd (frames A) (al x)
            (mka (absb (fbind f)) (fexp f) (Some (length (frames A))))
          ++ [mka (AMod t) (Some t) (option_map al (fpar f))])
       (atabs A) (astk A) (ahs A)).
Proof.
  intros al rk st A x f t t0 H F B n al' rk'.
  set (st' := set_frame _ _ _).
  pose proof (hash_dyn _ _ _ _ _ _ _ H F B) as C.
  pose proof (frame_lt _ _ _ F) as XL.
  assert (XN : x <> n) by (unfold n; lia).
  assert (HF : forall y, frame st' y
    = if y =? x then Some (mkframe (fbind f) (fexp f) (Some n) (fcopy f))
      else if y =? n then Some (mkframe (BHash t) (Some t) (fpar f) (Some n))
      else frame st y).
  { intros. unfold st'. rewrite frame_set, frame_new; auto.
    simpl. rewrite app_length. simpl. lia. }
  assert (LT : forall y f, frame st y = Some f -> y <> n)
    by (intros y g Y E; apply frame_lt in Y; unfold n in E; lia).
  assert (PE : forall y g, frame st y = Some g ->
    option_map al' (fpar g) = option_map al (fpar g))
    by (intros; eapply map_ext_par; eauto).
  assert (AL : forall y f, frame st y = Some f -> al y < length (frames A)).
  { intros y k K. destruct (canon_spec d _ _ _ _ y k H K) as (k' & _ & _ & E & _ & _ & _ & Q).
    apply nth_error_Some. congruence. }
  assert (OLD : forall y g, frame st' y = Some g -> y <> n ->
    exists g0, frame st y = Some g0 /\ fbind g = fbind g0 /\ fexp g = fexp g0 /\
      fcopy g = fcopy g0 /\ (y <> x -> g = g0) /\ (y = x -> fpar g = Some n)).
  { intros y g. rewrite HF. destruct (Nat.eqb_spec y x); intros Y NY.
    - subst. inversion Y; subst. exists f. simpl. ands; auto.
      intros Z; exfalso; auto.
    - destruct (Nat.eqb_spec y n); [contradiction|]. exists g. ands; auto.
      contradiction. }
  assert (NEW : forall y g0, frame st y = Some g0 -> exists g, frame st' y = Some g
     /\ fcopy g = fcopy g0 /\ fbind g = fbind g0 /\ (y <> x -> g = g0)).
  { intros y g0 Y. rewrite HF. destruct (Nat.eqb_spec y x).
    - subst. rewrite F in Y. inversion Y; subst. eexists. split; [reflexivity|].
      simpl. ands; auto. intros Z; exfalso; auto.
    - pose proof (LT _ _ Y). destruct (Nat.eqb_spec y n); [contradiction|].
      exists g0. ands; auto. }
  assert (FN : frame st' n = Some (mkframe (BHash t) (Some t) (fpar f) (Some n))).
  { rewrite HF. destruct (Nat.eqb_spec n x); [congruence|]. rewrite Nat.eqb_refl. auto. }
  assert (RK : forall z, z <> n -> rk' z = if rk x <=? rk z then S (rk z) else rk z)
    by (intros; unfold rk'; rewrite ext_other; auto).
  assert (RKN : rk' n = rk x) by (unfold rk'; apply ext_same).
  pose proof (AL _ _ F) as AX.
  destruct H eqn:HH; clear HH. constructor; simpl; auto.
  - intros h y Hy. simpl in Hy. pose proof (r_hb _ _ Hy). rewrite HF.
    unfold ahandle in *. simpl. rewrite (r_hs _ _ Hy).
    destruct (Nat.eqb_spec y x).
    + subst y. rewrite F. unfold dyn. simpl.
      unfold al'. rewrite ext_other by auto. auto.
    + destruct (Nat.eqb_spec y n); [unfold n in *; lia|].
      unfold al'. rewrite ext_other by auto. auto.
  - intros h y Hy. pose proof (r_hb _ _ Hy). rewrite upd_length, app_length. simpl. lia.
  - intros y g Y I. destruct (Nat.eq_dec y n).
    + subst y. rewrite FN in Y. inversion Y; subst g. simpl.
      unfold al' at 1. rewrite ext_same, (PE _ _ F), nth_snoc, upd_length, Nat.eqb_refl. auto.
    + destruct (OLD _ _ Y n0) as (g0 & G0 & Eb & Ee & Ec & E & E').
      pose proof (AL _ _ G0). unfold al' at 1. rewrite ext_other by auto.
      rewrite nth_error_app1 by (rewrite upd_length; auto). rewrite nth_upd.
      destruct (Nat.eq_dec y x).
      * subst y. rewrite Nat.eqb_refl. destruct (Nat.ltb_spec (al x) (length (frames A))); [|lia].
        rewrite F in G0. inversion G0; subst g0. rewrite Eb, Ee, (E' eq_refl). simpl.
        unfold al'. rewrite ext_same. auto.
      * specialize (E n1). subst g0.
        destruct (Nat.eqb_spec (al y) (al x)).
        { exfalso. apply n1. eapply r_inj; eauto. right; auto. }
        rewrite (PE _ _ G0). apply r_can; auto.
  - intros y g c Y Cg NE. destruct (Nat.eq_dec y n).
    + subst y. rewrite FN in Y. inversion Y; subst g. simpl in Cg. congruence.
    + destruct (OLD _ _ Y n0) as (g0 & G0 & Eb & Ee & Ec & E & E').
      destruct (Nat.eq_dec y x).
      { subst y. rewrite F in G0. inversion G0; subst g0. congruence. }
      specialize (E n1). subst g0.
      destruct (r_cop y g c G0 Cg NE) as (k & K & Q1 & Q2 & Q3 & Q4 & Q5 & Q6).
      assert (c <> x).
      { intros ->. rewrite F in K. inversion K; subst k. rewrite B in Q4.
        assert (NC : fcopy g <> Some y) by congruence.
        destruct (r_sta y g G0 NC) as (_ & _ & (l & El) & _). rewrite El in Q4. auto. }
      destruct (NEW _ _ K) as (k' & K' & _ & _ & W). rewrite (W H0) in K'.
      exists k. pose proof (LT _ _ K).
      rewrite (PE _ _ G0), (PE _ _ K). unfold al'. rewrite !ext_other by auto.
      rewrite !RK by auto. rewrite Q6. ands; auto.
  - intros y z g k Y Z IY IZ E.
    destruct (Nat.eq_dec y n), (Nat.eq_dec z n); subst; auto; unfold al' in E.
    + destruct (OLD _ _ Z n0) as (k0 & K0 & _ & _ & Ec & _).
      rewrite ext_same, ext_other in E by auto. pose proof (AL _ _ K0). lia.
    + destruct (OLD _ _ Y n0) as (k0 & K0 & _ & _ & Ec & _).
      rewrite ext_same, ext_other in E by auto. pose proof (AL _ _ K0). lia.
    + destruct (OLD _ _ Y n0) as (g0 & G0 & _ & _ & Eg & _).
      destruct (OLD _ _ Z n1) as (k0 & K0 & _ & _ & Ek & _).
      rewrite !ext_other in E by auto.
      eapply r_inj; eauto; unfold isc in *; congruence.
  - intros y g p Y P. destruct (Nat.eq_dec y n).
    + subst y. rewrite FN in Y. inversion Y; subst g. simpl in *.
      destruct (r_par x f p F P) as (k & K & Q1 & Q2 & Q3).
      destruct (NEW _ _ K) as (k' & K' & Kc & _). pose proof (LT _ _ K).
      exists k'. rewrite RKN, RK by auto. rewrite Kc. ands; auto.
      * destruct (Nat.leb_spec (rk x) (rk p)); lia.
      * intros NCk. exfalso. apply NCk. apply Q2. auto.
    + destruct (OLD _ _ Y n0) as (g0 & G0 & Eb & Ee & Ec & E & E').
      destruct (Nat.eq_dec y x).
      * subst y. rewrite (E' eq_refl) in P. inversion P; subst p.
        eexists. split; [exact FN|]. rewrite RKN, RK by auto. simpl. ands; auto; try congruence.
        destruct (Nat.leb_spec (rk x) (rk x)); lia.
      * specialize (E n1). subst g0.
        destruct (r_par y g p G0 P) as (k & K & Q1 & Q2 & Q3).
        destruct (NEW _ _ K) as (k' & K' & Kc & _). pose proof (LT _ _ K).
        exists k'. rewrite !RK by auto. rewrite Kc. ands; auto.
        destruct (Nat.leb_spec (rk x) (rk p)), (Nat.leb_spec (rk x) (rk y)); lia.
  - intros y g Y. rewrite upd_length, !app_length, upd_length. simpl.
    destruct (Nat.eq_dec y n).
    + subst y. rewrite RKN. destruct (r_rk x f F). lia.
    + destruct (OLD _ _ Y n0) as (g0 & G0 & _). destruct (r_rk y g0 G0).
      rewrite RK by auto. destruct (rk x <=? rk y); lia.
  - intros y g Y NC. destruct (Nat.eq_dec y n).
    + subst y. rewrite FN in Y. inversion Y; subst g. simpl in NC. congruence.
    + destruct (OLD _ _ Y n0) as (g0 & G0 & Eb & Ee & Ec & _). rewrite Eb, Ee.
      rewrite Ec in NC. eauto.
  - intros h Hh. destruct (r_stkok h Hh) as (y & g & Q1 & Q2 & Q3).
    destruct (NEW _ _ Q2) as (g' & G' & Gc & _). exists y, g'. rewrite Gc. auto.
  - intros y g l Y Bg D. destruct (Nat.eq_dec y n).
    + subst y. rewrite FN in Y. inversion Y; subst g. simpl in Bg. discriminate.
    + destruct (OLD _ _ Y n0) as (g0 & G0 & Eb & _). rewrite Eb in Bg. eauto.
Qed.

Lemma R_use : forall al rk st A x f t0 y g t1, R d al rk st A ->
  frame st x = Some f -> fbind f = BHash t0 ->
  frame st y = Some g -> fbind g = BHash t1 ->
  exists al' rk', R d al' rk' (use_module st x y) (ause A (al x) (al y)).
Proof.
  intros al rk st A x f t0 y g t1 H F B G Bg. unfold use_module, ause.
  pose proof (hash_dyn _ _ _ _ _ _ _ H F B) as C.
  rewrite F, C, Nat.eqb_refl. unfold use_helper.
  destruct (R_exports al rk st A y g t1 H G Bg) as (Q1 & Q2 & Q3 & Q4).
  destruct (get_exports st y) as [st1 t]. destruct (aexports A (al y)) as [A1 t'].
  simpl in *. subst t'.
  destruct (Q3 x f F) as (f1 & F1 & E1 & E2 & E3). rewrite C in E3.
  destruct (r_rk _ _ _ _ _ Q1 x f1 F1) as [K1 K2].
  rewrite (uses_ok al rk st1 A1 t Q1 (length (heap st1)) (length (frames A1)) x f1 F1 E3 K1 K2).
  destruct (auses (length (frames A1)) A1 (al x) t); [eauto|].
  rewrite F1, (r_can _ _ _ _ _ Q1 x f1 F1 (or_intror E3)). simpl.
  assert (CO : copy_opt st1 (fpar f1) = (st1, fpar f1)).
  { destruct (fpar f1) as [p|] eqn:P; auto. simpl. unfold copy_env.
    destruct (r_par _ _ _ _ _ Q1 x f1 p F1 P) as (k & K & _ & W & _).
    pose proof (frame_lt _ _ _ K). destruct (length (heap st1)) eqn:LH; [lia|].
    simpl. rewrite K, (W E3). auto. }
  unfold make_export_env. rewrite CO. cbn beta iota.
  rewrite frame_new. pose proof (frame_lt _ _ _ F1).
  destruct (Nat.eqb_spec x (length (heap st1))); [lia|]. rewrite F1.
  rewrite B in E1.
  eexists _, _. apply (R_insert al rk st1 A1 x f1 t t0 Q1 F1 E1).
Qed.

Lemma R_export : forall al rk st A x f t0 s, R d al rk st A ->
  frame st x = Some f -> fbind f = BHash t0 ->
  R d al rk (module_export st x s)
    (let '(A1, t) := aexports A (al x) in
     match nth_error (frames A1) (al x) with
     | None => A1
     | Some f =>
         with_tab A1 t
           (fun s' => if s' =? s
                      then match place A1 (abind f) s with
                           | Some v => Some v
                           | None => Some VVoid
                           end
                      else atab A1 t s')
     end).
Proof.
  intros al rk st A x f t0 s H F B. unfold module_export.
  pose proof (hash_dyn _ _ _ _ _ _ _ H F B) as C.
  destruct (R_exports al rk st A x f t0 H F B) as (Q1 & Q2 & Q3 & Q4).
  destruct (get_exports st x) as [st1 t]. destruct (aexports A (al x)) as [A1 t'].
  simpl in *. subst t'.
  destruct (Q3 x f F) as (f1 & F1 & E1 & E2 & E3). rewrite C in E3.
  rewrite F1, (r_can _ _ _ _ _ Q1 x f1 F1 (or_intror E3)). simpl.
  apply R_tab; auto. intros s'. rewrite assoc_hash_store, (r_tabs _ _ _ _ _ Q1).
  destruct (s' =? s); auto. rewrite E1, B. simpl. rewrite (r_tabs _ _ _ _ _ Q1).
  destruct (atab A1 t0 s); auto.
Qed.

Lemma R_init : forall al rk st A x f i v, R d al rk st A -> d = true ->
  frame st x = Some f -> dyn x f = false ->
  R d al rk (fst (init_slot st x i v))
    (match nth_error (frames A) (al x) with
     | Some g => match abind g with
                 | ALex l => if i <? length l
                             then with_frame A (al x)
                                    (mka (ALex (put l i v)) (aexp g) (apar g))
                             else A
                 | AMod _ => A
                 end
     | None => A
     end)
  /\ oret (snd (init_slot st x i v))
     = match nth_error (frames A) (al x) with
       | Some g => match abind g with
                   | ALex l => if i <? length l then Done else Error
                   | AMod _ => Error
                   end
       | None => Error
       end.
Proof.
  intros al rk st A x f i v H D F NC.
  assert (NX : fcopy f <> Some x)
    by (intros E; apply dyn_spec in E; congruence).
  destruct (r_sta _ _ _ _ _ H x f F NX) as (_ & _ & (l0 & B) & FE).
  unfold init_slot. rewrite F, B.
  destruct (fcopy f) as [c|] eqn:C.
  - assert (CX : c <> x) by congruence.
    destruct (r_cop _ _ _ _ _ H x f c F C CX) as (g & G & GC & Ea & Ep & Es & Ee & _).
    rewrite B in Es. destruct (fbind g) as [l|] eqn:Bg; [|contradiction]. simpl in Es.
    pose proof (r_can _ _ _ _ _ H c g G (or_intror GC)) as N.
    rewrite <- Ea, N, Bg. cbn [absb abind aexp apar].
    assert (LL : length l0 = length l)
      by (rewrite <- (map_length fst l0), Es; apply map_length).
    destruct (nth_error l0 i) as [[s w]|] eqn:Ni.
    + assert (i < length l0) by (apply nth_error_Some; congruence).
      destruct (Nat.ltb_spec i (length l)); [|lia].
      assert (Pi : pos s l = Some i).
      { rewrite <- (pos_map s l0 l Es). apply (pos_nodup l0 i s w); auto.
        apply (r_nodup _ _ _ _ _ H x f l0 F B D). }
      destruct (R_bind d al rk st A c g s v H G) as (K1 & K2 & _).
      unfold write in K1, K2. rewrite N, Bg in K1, K2. simpl in K1, K2.
      rewrite Pi in K1, K2. unfold export_too in K1, K2. cbn [aexp] in K1, K2.
      rewrite Ee in *. cbn [fst snd] in K1, K2. auto.
    + apply nth_error_None in Ni.
      destruct (Nat.ltb_spec i (length l)); [lia|]. simpl. auto.
  - pose proof (r_can _ _ _ _ _ H x f F (or_introl C)) as N.
    rewrite N, B. cbn [absb abind aexp apar].
    destruct (nth_error l0 i) as [[s w]|] eqn:Ni.
    + assert (i < length l0) by (apply nth_error_Some; congruence).
      destruct (Nat.ltb_spec i (length l0)); [|lia]. simpl. split; auto.
      rewrite (put_upd l0 i s w v Ni).
      pose proof (R_upd d al rk st A x f (BSchema (put l0 i v)) (fexp f) H F
                    (or_introl C)) as K.
      rewrite C in K. apply K; auto. rewrite B. simpl. rewrite put_fst. auto.
    + apply nth_error_None in Ni.
      destruct (Nat.ltb_spec i (length l0)); [lia|]. simpl. auto.
Qed.

Theorem step_ok : forall al rk st A o, R d al rk st A -> tame d o ->
  exists al' rk', R d al' rk' (fst (step st o)) (fst (astep A o))
    /\ snd (step st o) = snd (astep A o).
Proof.
  intros al rk st A o H T. destruct o; simpl in T; try contradiction; simpl.
  - (* OPush *)
    pose proof (handle_opt_ok d al rk st A h H) as K.
    destruct (handle_opt st h) as [p|].
    + destruct K as [-> K].
      assert (ND : d = true -> NoDup (map fst (combine vars vals))).
      { intros D. specialize (T D). clear -T. revert vals.
        induction vars; intros; simpl; [constructor|].
        destruct vals; simpl; [constructor|]. inversion T; subst. constructor; auto.
        intros IN. apply H1. apply in_map_iff in IN. destruct IN as ([s w] & <- & IN).
        eapply in_combine_l. exact IN. }
      pose proof (R_push d al rk st A p (combine vars vals) H K ND) as Q.
      eexists _, _. split; [exact Q|].
      simpl. rewrite (r_hlen _ _ _ _ _ H). auto.
    + rewrite K. eauto.
  - (* OPop *)
    rewrite <- (r_stk _ _ _ _ _ H). destruct (stk st) as [|h r] eqn:S; [eauto|].
    destruct (r_stkok _ _ _ _ _ H h) as (x & f & X & _); [rewrite S; simpl; auto|].
    rewrite X. eexists _, _. split; [|auto]. simpl. eapply R_pop; eauto.
  - (* OCopy *)
    destruct (handle st h) as [x|] eqn:E.
    + destruct (handle_some d _ _ _ _ _ _ H E) as (f & _ & F & ->).
      destruct (R_copy_env d al rk st A x f H F) as (al' & rk' & g & Q1 & Q2 & Q3 & Q4).
      destruct (copy_env st x) as [st1 c]. simpl in *. rewrite <- Q4.
      destruct (R_give d al' rk' st1 A c g Q1 Q2 Q3). eauto.
    + rewrite (handle_none d _ _ _ _ _ H E). eauto.
  - (* OModule *)
    pose proof (handle_opt_ok d al rk st A h H) as K.
    destruct (handle_opt st h) as [p|].
    + destruct K as [-> K].
      destruct (R_module al rk st A p H K) as (al' & rk' & Q1 & Q2 & g & Q3 & Q4).
      destruct (make_module st p) as [st1 x]. simpl in *.
      rewrite <- Q2. exists al', rk'. apply (R_give d al' rk' _ _ x g Q1); auto.
    + rewrite K. eauto.
  - (* OImport *)
    pose proof (handle_opt_ok d al rk st A h H) as K.
    destruct (handle_opt st h) as [p|]; [|rewrite K; eauto].
    destruct K as [-> K]. destruct (handle st m) as [y|] eqn:E.
    + destruct (handle_some d _ _ _ _ _ _ H E) as (f & _ & F & ->).
      rewrite (module_ok _ _ _ _ _ _ H F). destruct (amodule A (al y)) eqn:M; [|eauto].
      rewrite <- (module_ok _ _ _ _ _ _ H F) in M.
      destruct (module_hash _ _ _ F M) as (t & B).
      destruct (R_exports al rk st A y f t H F B) as (Q1 & Q2 & Q3 & Q4).
      destruct (get_exports st y) as [st1 t1]. destruct (aexports A (al y)) as [A1 t1'].
      simpl in *. subst t1'.
      destruct (R_import al rk st1 A1 p t1 Q1) as (al' & rk' & W1 & W2 & g & W3 & W4).
      { intros x Ex. destruct (K x Ex) as (k & Kx). destruct (Q3 x k Kx) as (k' & Kx' & _).
        eauto. }
      destruct (make_export_env st1 t1 p) as [st2 x]. simpl in *.
      rewrite <- W2. exists al', rk'. apply (R_give d al' rk' _ _ x g W1); auto.
    + rewrite (handle_none d _ _ _ _ _ H E). eauto.
  - (* OExport *)
    destruct (handle st m) as [y|] eqn:E.
    + destruct (handle_some d _ _ _ _ _ _ H E) as (f & _ & F & ->).
      rewrite (module_ok _ _ _ _ _ _ H F). destruct (amodule A (al y)) eqn:M; [|eauto].
      rewrite <- (module_ok _ _ _ _ _ _ H F) in M.
      destruct (module_hash _ _ _ F M) as (t & B).
      pose proof (R_export al rk st A y f t s H F B) as Q.
      destruct (aexports A (al y)) as [A1 t1].
      destruct (nth_error (frames A1) (al y)); eauto.
    + rewrite (handle_none d _ _ _ _ _ H E). eauto.
  - (* OUse *)
    destruct (handle st h) as [x|] eqn:Ex.
    + destruct (handle_some d _ _ _ _ _ _ H Ex) as (f & _ & F & ->).
      destruct (handle st m) as [y|] eqn:E.
      * destruct (handle_some d _ _ _ _ _ _ H E) as (g & _ & G & ->).
        rewrite (module_ok _ _ _ _ _ _ H F), (module_ok _ _ _ _ _ _ H G).
        destruct (amodule A (al x)) eqn:M; simpl; [|eauto].
        destruct (amodule A (al y)) eqn:M'; simpl; [|eauto].
        rewrite <- (module_ok _ _ _ _ _ _ H F) in M.
        rewrite <- (module_ok _ _ _ _ _ _ H G) in M'.
        destruct (module_hash _ _ _ F M) as (t & B).
        destruct (module_hash _ _ _ G M') as (t' & B').
        destruct (R_use al rk st A x f t y g t' H F B G B') as (al' & rk' & Q). eauto.
      * rewrite (handle_none d _ _ _ _ _ H E). eauto.
    + rewrite (handle_none d _ _ _ _ _ H Ex). eauto.
  - (* OSet *)
    destruct (handle st h) as [x|] eqn:E.
    + destruct (handle_some d _ _ _ _ _ _ H E) as (f & _ & F & ->).
      destruct (R_set d al rk st A x f s (VObj n) H F) as [Q1 Q2].
      destruct (set_bang st x s (VObj n)). simpl in *. eauto.
    + rewrite (handle_none d _ _ _ _ _ H E). eauto.
  - (* ODefine *)
    destruct (handle st h) as [x|] eqn:E.
    + destruct (handle_some d _ _ _ _ _ _ H E) as (f & _ & F & ->).
      destruct (R_bind d al rk st A x f s (VObj n) H F) as (Q1 & Q2 & _).
      destruct (bind_value st x s (VObj n)). simpl in *. eauto.
    + rewrite (handle_none d _ _ _ _ _ H E). eauto.
  - (* OInit *)
    destruct (handle st h) as [x|] eqn:E.
    + destruct (handle_some d _ _ _ _ _ _ H E) as (f & _ & F & ->).
      unfold is_dynamic. rewrite F. fold (dyn x f). destruct (dyn x f) eqn:DX; [eauto|].
      destruct (R_init al rk st A x f i (VObj n) H T F DX) as [Q1 Q2].
      destruct (init_slot st x i (VObj n)). simpl in *. rewrite Q2.
      destruct (nth_error (frames A) (al x)) as [g|]; [|eauto].
      destruct (abind g); [|eauto]. destruct (i <? length l); eauto.
    + rewrite (handle_none d _ _ _ _ _ H E). eauto.
  - (* ODo *)
    rewrite <- (r_stk _ _ _ _ _ H). destruct (stk st) as [|h' r] eqn:S; [eauto|].
    destruct (Nat.eqb_spec h' h); [|eauto]. subst h'.
    destruct (handle st h) as [x|] eqn:E.
    + destruct (handle_some d _ _ _ _ _ _ H E) as (f & X & F & AH). rewrite AH.
      destruct (r_stkok _ _ _ _ _ H h) as (x' & f' & X' & F' & NC);
        [rewrite S; simpl; auto|].
      rewrite X in X'. inversion X'; subst x'. rewrite F in F'. inversion F'; subst f'.
      clear X' F'.
      destruct (r_sta _ _ _ _ _ H x f F NC) as (_ & _ & (l0 & B) & FE).
      destruct (canon_spec d _ _ _ _ x f H F) as (g & G & I & Ea & _ & Ep & Es & N).
      assert (GE : fexp g = None).
      { unfold canon in G. rewrite F in G. destruct (fcopy f) as [c|] eqn:C.
        - destruct (r_cop _ _ _ _ _ H x f c F C) as (g' & G' & _ & _ & _ & _ & W & _);
            congruence.
        - congruence. }
      rewrite B in Es. destruct (fbind g) as [l|] eqn:Bg; [|contradiction]. simpl in Es.
      rewrite N. cbn [abind aexp apar absb]. unfold do_step. rewrite F, B.
      assert (LL : length l0 = length l)
        by (rewrite <- (map_length fst l0), Es; apply map_length).
      rewrite LL. destruct (Nat.eqb_spec (length us) (length l)); [|eauto].
      assert (DX : dyn x f = false)
        by (destruct (dyn x f) eqn:W; auto; apply dyn_spec in W; congruence).
      rewrite DX. simpl.
      destruct (R_do d al rk st A h r x f (mka (ALex l) (fexp g) (option_map al (fpar g)))
                  us l l0 H S X F B FE N eq_refl GE Ep Es e T) as (al' & Q).
      simpl in Q. rewrite <- (r_stk _ _ _ _ _ H), S in Q. eauto.
    + rewrite (handle_none d _ _ _ _ _ H E). eauto.
  - (* OLook *)
    destruct (handle st h) as [x|] eqn:E.
    + destruct (handle_some d _ _ _ _ _ _ H E) as (f & _ & F & ->).
      rewrite (look_ok d al rk st A x f s H F). simpl. eauto.
    + rewrite (handle_none d _ _ _ _ _ H E). eauto.
  - (* OLexref *)
    destruct (handle st h) as [x|] eqn:E.
    + destruct (handle_some d _ _ _ _ _ _ H E) as (f & _ & F & ->).
      rewrite (lexref_ok d al rk st A H up x f across F). simpl. eauto.
    + rewrite (handle_none d _ _ _ _ _ H E). eauto.
Qed.

Lemma R_init_state : R d (fun z => z) (fun z => z) cinit ainit.
Proof.
  assert (N : forall A i, @nth_error A [] i = None) by (destruct i; auto).
  assert (FN : forall x, frame cinit x = None)
    by (intros; unfold frame; simpl; rewrite N; auto).
  constructor; simpl; auto; intros; try (rewrite FN in *; discriminate);
    try (rewrite N in *; discriminate); try contradiction.
  - unfold table, atab. simpl. rewrite N. destruct t; auto.
  - constructor.
Qed.

Theorem run_ok : forall k al rk st A seen prog, R d al rk st A ->
  (forall seen, tame d (prog seen)) -> run k st seen prog = arun k A seen prog.
Proof.
  induction k; intros al rk st A seen prog H T; simpl; auto.
  destruct (step_ok al rk st A (prog seen) H (T seen)) as (al' & rk' & Q1 & Q2).
  destruct (step st (prog seen)) as [st1 o]. destruct (astep A (prog seen)) as [A1 o'].
  simpl in *. subst o'. eauto.
Qed.

End With.

(* What a program observes after a history of operations, and the laws of
   lookup and assignment read off the plain machine. *)

From Coq Require Import List Arith Bool Lia.
Import ListNotations.
From Verif Require Import EnvModel EnvSpec EnvProofs EnvProofs2 EnvProofs3 EnvProofs4.

(* The memory after a list of operations, and what one more observes. *)
Definition exec (ops : list op) : cstate :=
  fold_left (fun st o => fst (step st o)) ops cinit.

Definition after (ops : list op) (o : op) : obs := snd (step (exec ops) o).

Definition aexec (ops : list op) : astate :=
  fold_left (fun A o => fst (astep A o)) ops ainit.

Definition aafter (ops : list op) (o : op) : obs := snd (astep (aexec ops) o).

Lemma exec_app : forall ops o, exec (ops ++ [o]) = fst (step (exec ops) o).
Proof. intros. unfold exec. rewrite fold_left_app. auto. Qed.

Lemma aexec_app : forall ops o, aexec (ops ++ [o]) = fst (astep (aexec ops) o).
Proof. intros. unfold aexec. rewrite fold_left_app. auto. Qed.

Lemma exec_ok : forall d ops, Forall (tame d) ops ->
  exists al rk, R d al rk (exec ops) (aexec ops).
Proof.
  intros d ops. induction ops as [|o ops IH] using rev_ind; intros T.
  - eexists _, _. apply R_init_state.
  - apply Forall_app in T. destruct T as [T1 T2]. inversion T2; subst.
    destruct (IH T1) as (al & rk & H). rewrite exec_app, aexec_app.
    destruct (step_ok d al rk _ _ o H) as (al' & rk' & Q & _); eauto.
Qed.

Lemma after_ok : forall d ops o, Forall (tame d) ops -> tame d o ->
  after ops o = aafter ops o.
Proof.
  intros d ops o T To. destruct (exec_ok d ops T) as (al & rk & H).
  destruct (step_ok d al rk _ _ o H To) as (_ & _ & _ & Q). exact Q.
Qed.

(* Parents, tables and handles exist. *)
Record wf (A : astate) : Prop :=
  { w_par : forall a f p, nth_error (frames A) a = Some f -> apar f = Some p ->
      p < length (frames A);
    w_exp : forall a f t, nth_error (frames A) a = Some f -> aexp f = Some t ->
      t < length (atabs A);
    w_mod : forall a f t, nth_error (frames A) a = Some f -> abind f = AMod t ->
      t < length (atabs A);
    w_hs : forall h b a, ahandle A h = Some (b, a) -> a < length (frames A) }.

Lemma upd_nth : forall A (l : list A) i j a,
  nth_error (upd l i a) j
  = if j =? i then (if i <? length l then Some a else None) else nth_error l j.
Proof.
  induction l; intros; simpl.
  - destruct j; simpl; destruct i; simpl; auto. destruct (j =? i); auto.
  - destruct i, j; simpl; auto. rewrite IHl. auto.
Qed.

Lemma upd_len : forall A (l : list A) i a, length (upd l i a) = length l.
Proof. induction l; intros; simpl; auto. destruct i; simpl; auto. Qed.

Lemma ahandle_app : forall fs ts sk hs x h,
  ahandle (mks fs ts sk (hs ++ [x])) h
  = if h =? length hs then x else ahandle (mks fs ts sk hs) h.
Proof.
  intros. unfold ahandle. simpl. destruct (Nat.eqb_spec h (length hs)).
  - subst. rewrite app_nth2, Nat.sub_diag; auto.
  - destruct (Nat.lt_ge_cases h (length hs)).
    + rewrite app_nth1; auto.
    + rewrite app_nth2 by auto. rewrite (nth_overflow hs) by auto.
      destruct (h - length hs) eqn:E; [lia|]. destruct n0; auto.
Qed.

Lemma ahandle_upd : forall fs ts sk hs i x h b a,
  ahandle (mks fs ts sk (upd hs i x)) h = Some (b, a) ->
  x = Some (b, a) \/ ahandle (mks fs ts sk hs) h = Some (b, a).
Proof.
  intros fs ts sk hs. unfold ahandle; simpl.
  induction hs; simpl; intros; auto. destruct i; simpl in *.
  - destruct h; auto.
  - destruct h; auto. eauto.
Qed.

Lemma wf_grow : forall A fs ts sk hs, wf A ->
  length (frames A) <= length fs -> length (atabs A) <= length ts ->
  (forall a f, nth_error fs a = Some f ->
     (exists g, nth_error (frames A) a = Some g /\ (apar f = apar g \/
        (exists p, apar f = Some p /\ p < length fs)) /\
        (aexp f = aexp g \/ (exists t, aexp f = Some t /\ t < length ts)) /\
        (abind f = abind g \/ (exists l, abind f = ALex l))) \/
     ((forall p, apar f = Some p -> p < length fs) /\
      (forall t, aexp f = Some t -> t < length ts) /\
      (forall t, abind f = AMod t -> t < length ts))) ->
  (forall h b a, nth h hs None = Some (b, a) ->
     ahandle A h = Some (b, a) \/ a < length fs) ->
  wf (mks fs ts sk hs).
Proof.
  intros A fs ts sk hs W LF LT F HS. constructor; simpl.
  - intros a f p N P. destruct (F a f N) as [(g & G & [E|(p' & E & ?)] & _)|(Q & _)]; auto.
    + rewrite P in E. symmetry in E. pose proof (w_par A W a g p G E). lia.
    + rewrite P in E. inversion E. subst. auto.
  - intros a f t N P. destruct (F a f N) as [(g & G & _ & [E|(t' & E & ?)] & _)|(_ & Q & _)]; auto.
    + rewrite P in E. symmetry in E. pose proof (w_exp A W a g t G E). lia.
    + rewrite P in E. inversion E. subst. auto.
  - intros a f t N P. destruct (F a f N) as [(g & G & _ & _ & [E|(l & E)])|(_ & _ & Q)]; auto.
    + rewrite P in E. symmetry in E. pose proof (w_mod A W a g t G E). lia.
    + congruence.
  - intros h b a N. destruct (HS h b a N) as [K|K]; auto.
    pose proof (w_hs A W h b a K). lia.
Qed.

Lemma wf_same : forall A sk, wf A -> wf (mks (frames A) (atabs A) sk (ahs A)).
Proof. intros A sk [a b c e]. constructor; auto. Qed.

Lemma wf_tab : forall A t g, wf A -> wf (with_tab A t g).
Proof.
  intros A t g [a b c e]. constructor; simpl; intros; rewrite ?upd_len; eauto.
Qed.

Lemma wf_export_too : forall A f s v, wf A -> wf (export_too A f s v).
Proof. intros. unfold export_too. destruct (aexp f); auto using wf_tab. Qed.

Lemma wf_frame : forall A a f g, wf A -> nth_error (frames A) a = Some g ->
  apar f = apar g -> (aexp f = aexp g) ->
  (abind f = abind g \/ exists l, abind f = ALex l) -> wf (with_frame A a f).
Proof.
  intros A a f g W G P E B. apply wf_grow with (A := A); auto.
  - rewrite upd_len; auto.
  - intros x h N. rewrite upd_nth in N. destruct (Nat.eqb_spec x a).
    + destruct (a <? _); inversion N; subst. left. exists g. auto.
    + left. exists h. auto.
Qed.

Lemma wf_write : forall A a s v, wf A -> wf (fst (write A a s v)).
Proof.
  intros. unfold write. destruct (nth_error (frames A) a) eqn:N; auto.
  destruct (abind a0) eqn:B; simpl.
  - destruct (pos s l); simpl; auto. apply wf_export_too.
    eapply wf_frame; simpl; eauto.
  - apply wf_export_too, wf_tab. auto.
Qed.

Lemma wf_aset : forall A a s v, wf A -> wf (fst (aset A a s v)).
Proof.
  intros. unfold aset. destruct (home _ _ _ _); auto using wf_write.
  destruct (nth_error _ _); auto. destruct (imported _); auto using wf_write.
Qed.

Lemma wf_aexports : forall A a, wf A -> a < length (frames A) ->
  wf (fst (aexports A a)) /\ length (frames (fst (aexports A a))) = length (frames A)
  /\ snd (aexports A a) < length (atabs (fst (aexports A a)))
  /\ ahs (fst (aexports A a)) = ahs A
  /\ astk (fst (aexports A a)) = astk A.
Proof.
  intros A a W LA. unfold aexports. destruct (nth_error (frames A) a) as [f|] eqn:N.
  2: { apply nth_error_None in N. lia. }
  destruct (aexp f) eqn:E; simpl.
  - repeat split; auto; try apply W. eapply w_exp; eauto.
  - split; [|rewrite upd_len, app_length; simpl; repeat split; lia].
    apply wf_grow with (A := A); auto.
    + rewrite upd_len; auto.
    + rewrite app_length; lia.
    + intros x g M. rewrite upd_nth in M. destruct (Nat.eqb_spec x a).
      * destruct (a <? _); inversion M; subst. left. exists f. simpl.
        split; auto. split; auto. split; auto. right. eexists. split; eauto.
        rewrite app_length; simpl; lia.
      * left. exists g. auto.
Qed.

Lemma wf_give : forall A b a, wf A -> a < length (frames A) -> wf (fst (agive A b a)).
Proof.
  intros A b a W L. unfold agive. simpl. apply wf_grow with (A := A); auto.
  - intros x f N. left. exists f. auto.
  - intros h b' a' N.
    pose proof (ahandle_app (frames A) (atabs A) (astk A) (ahs A) (Some (b, a)) h) as Q.
    unfold ahandle in Q at 1. simpl in Q. rewrite N in Q.
    destruct (h =? _); [inversion Q; auto|left; symmetry; exact Q].
Qed.

Lemma app_nth : forall A (l : list A) x i y, nth_error (l ++ [x]) i = Some y ->
  nth_error l i = Some y \/ (i = length l /\ x = y).
Proof.
  intros A l x i y N. destruct (Nat.lt_ge_cases i (length l)).
  - rewrite nth_error_app1 in N; auto.
  - rewrite nth_error_app2 in N; auto. destruct (i - length l) eqn:E; simpl in N.
    + inversion N. right. split; auto. lia.
    + destruct n; discriminate.
Qed.

Lemma opt_ok : forall A h p, wf A -> ahandle_opt A h = Some p ->
  forall a, p = Some a -> a < length (frames A).
Proof.
  intros A h p W H a ->. unfold ahandle_opt in H. destruct h; [|discriminate].
  destruct (ahandle A n) as [[b a']|] eqn:E; inversion H; subst.
  eapply w_hs; eauto.
Qed.

Lemma wf_ause : forall A a m, wf A -> m < length (frames A) -> wf (ause A a m).
Proof.
  intros A a m W LM. unfold ause.
  destruct (wf_aexports A m W LM) as (Q1 & Q2 & Q3 & Q4 & _).
  destruct (aexports A m) as [A1 t]. simpl in *.
  destruct (auses _ _ _ _); auto.
  destruct (nth_error (frames A1) a) as [f|] eqn:N; auto.
  apply wf_grow with (A := A1); auto.
  - rewrite app_length, upd_len; lia.
  - intros x g M. rewrite app_length, upd_len. simpl.
    apply app_nth in M. destruct M as [M|[-> <-]].
    + rewrite upd_nth in M. destruct (Nat.eqb_spec x a).
      * destruct (a <? _); inversion M; subst. left. exists f. simpl. split; auto.
        split; [right; eexists; split; eauto; lia|auto].
      * left. exists g. auto.
    + right. simpl. repeat split; intros; try congruence.
      pose proof (w_par _ Q1 a f p N H). lia.
Qed.

Lemma wf_step : forall A o, wf A -> wf (fst (astep A o)).
Proof.
  intros A o W. destruct o; simpl.
  - destruct (ahandle_opt A h) as [p|] eqn:E; auto. simpl.
    apply wf_grow with (A := A); auto.
    + rewrite app_length; lia.
    + intros a f N. rewrite app_length; simpl. apply app_nth in N.
      destruct N as [N|[-> <-]].
      * left. exists f; auto.
      * right. simpl. repeat split; intros; try discriminate.
        pose proof (opt_ok A h p W E _ H). lia.
    + intros g b a N. rewrite app_length; simpl.
      pose proof (ahandle_app (frames A) (atabs A) (astk A) (ahs A)
                    (Some (false, length (frames A))) g) as Q.
      unfold ahandle in Q at 1. simpl in Q. rewrite N in Q.
      destruct (g =? _); [inversion Q; subst; right; lia|left; symmetry; exact Q].
  - destruct (astk A); auto. simpl. apply wf_grow with (A := A); auto.
    + intros a f N. left; exists f; auto.
    + intros h b a N.
      destruct (ahandle_upd (frames A) (atabs A) (astk A) (ahs A) n None h b a N);
        [discriminate|]. left. destruct A; auto.
  - destruct (ahandle A h) as [[b a]|] eqn:E; auto. apply wf_give; auto.
    eapply w_hs; eauto.
  - destruct (ahandle_opt A h) as [p|] eqn:E; auto. apply wf_give; simpl.
    + apply wf_grow with (A := A); auto.
      * rewrite app_length; lia.
      * rewrite app_length; lia.
      * intros a f N. rewrite !app_length; simpl. apply app_nth in N.
        destruct N as [N|[-> <-]].
        -- left. exists f; auto.
        -- right. simpl. repeat split; intros; try discriminate.
           ++ pose proof (opt_ok A h p W E _ H). lia.
           ++ inversion H. lia.
    + rewrite app_length; simpl; lia.
  - destruct (ahandle_opt A h) as [p|] eqn:E; auto.
    destruct (ahandle A m) as [[b y]|] eqn:M; auto.
    destruct (amodule A y); auto.
    destruct (wf_aexports A y W (w_hs _ W _ _ _ M)) as (Q1 & Q2 & Q3 & Q4 & _).
    destruct (aexports A y) as [A1 t]. cbn [fst snd] in *. apply wf_give; simpl.
    + apply wf_grow with (A := A1); auto.
      * rewrite app_length; lia.
      * intros a f N. rewrite !app_length; simpl. apply app_nth in N.
        destruct N as [N|[-> <-]].
        -- left. exists f; auto.
        -- right. simpl. repeat split; intros; try congruence.
           pose proof (opt_ok A h p W E _ H). lia.
    + rewrite app_length; simpl; lia.
  - destruct (ahandle A m) as [[b y]|] eqn:M; auto.
    destruct (amodule A y); auto.
    destruct (wf_aexports A y W (w_hs _ W _ _ _ M)) as (Q1 & _).
    destruct (aexports A y) as [A1 t]. simpl in *.
    destruct (nth_error (frames A1) y); auto. apply wf_tab; auto.
  - destruct (ahandle A h) as [[b y]|] eqn:M; auto.
    destruct (ahandle A m) as [[b' y']|] eqn:M'; auto.
    destruct (andb _ _); auto. apply wf_ause; auto. eapply w_hs; eauto.
  - destruct (ahandle A h) as [[b y]|] eqn:M; auto.
    destruct (ahandle A m) as [[b' y']|] eqn:M'; auto.
    destruct (andb _ _); auto. apply wf_ause; auto. eapply w_hs; eauto.
  - destruct (ahandle A h) as [[b y]|] eqn:M; auto using wf_aset.
  - destruct (ahandle A h) as [[b y]|] eqn:M; auto using wf_write.
  - destruct (ahandle A h) as [[b y]|] eqn:M; auto.
    destruct (nth_error (frames A) y) as [f|]; auto. destruct (abind f); auto using wf_write.
  - destruct (ahandle A h) as [[[] y]|] eqn:M; auto.
    destruct (nth_error (frames A) y) as [f|] eqn:N; auto. destruct (abind f) eqn:B; auto.
    destruct (i <? length l); auto. simpl. eapply wf_frame; simpl; eauto.
  - destruct (astk A) as [|h' r]; auto. destruct (h' =? h); auto.
    destruct (ahandle A h) as [[b y]|] eqn:M; auto.
    destruct (nth_error (frames A) y) as [f|] eqn:N; auto. destruct (abind f) eqn:B; auto.
    destruct (length us =? length l); auto. simpl.
    apply wf_grow with (A := A); auto.
    + rewrite app_length; lia.
    + intros a g K. rewrite !app_length; simpl. apply app_nth in K.
      destruct K as [K|[-> <-]].
      * left. exists g; auto.
      * right. simpl. repeat split; intros; try discriminate.
        -- pose proof (w_par _ W y f p N H). lia.
        -- eapply w_exp; eauto.
    + intros g b' a K. rewrite app_length; simpl.
      destruct (ahandle_upd (frames A) (atabs A) (astk A) (ahs A) h _ g b' a K) as [Q|Q].
      * inversion Q. right. lia.
      * left. destruct A; auto.
  - destruct (ahandle A h) as [[b y]|] eqn:M; auto.
  - destruct (ahandle A h) as [[b y]|] eqn:M; auto.
Qed.

Lemma wf_exec : forall ops, wf (aexec ops).
Proof.
  induction ops using rev_ind.
  - constructor; simpl; intros.
    + destruct a; discriminate.
    + destruct a; discriminate.
    + destruct a; discriminate.
    + unfold ahandle in H. simpl in H. destruct h; discriminate.
  - rewrite aexec_app. apply wf_step; auto.
Qed.

Lemma pos_fst : forall s l l', map fst l = map fst l' -> pos s l = pos s l'.
Proof.
  induction l; intros [|p l'] H; simpl in *; try discriminate; auto.
  inversion H. rewrite H1. rewrite (IHl l'); auto.
Qed.

Lemma pos_at : forall s l i, pos s l = Some i ->
  exists v, nth_error l i = Some (s, v).
Proof.
  induction l as [|[s' v'] l]; intros i H; simpl in *; [discriminate|].
  destruct (Nat.eqb_spec s s').
  - inversion H. subst. simpl. eauto.
  - destruct (pos s l); simpl in *; inversion H. simpl. auto.
Qed.

Lemma put_nth : forall l i j s w v, nth_error l i = Some (s, w) ->
  nth_error (put l i v) j = if j =? i then Some (s, v) else nth_error l j.
Proof.
  intros l i j s w v H. rewrite <- (put_upd l i s w v H), upd_nth.
  assert (i < length l) by (apply nth_error_Some; congruence).
  destruct (Nat.ltb_spec i (length l)); [auto|lia].
Qed.

Lemma atab_with : forall A t g t', t < length (atabs A) ->
  atab (with_tab A t g) t' = if t' =? t then g else atab A t'.
Proof.
  intros A t g t' L. unfold atab. simpl.
  pose proof (upd_nth _ (atabs A) t t' g) as Q.
  destruct (Nat.eqb_spec t' t).
  - subst. destruct (Nat.ltb_spec t (length (atabs A))); [|lia].
    apply nth_error_nth. auto.
  - destruct (nth_error (atabs A) t') eqn:N.
    + rewrite (nth_error_nth _ _ _ N). apply nth_error_nth. auto.
    + rewrite nth_overflow, nth_overflow; auto.
      * apply nth_error_None. auto.
      * apply nth_error_None. auto.
Qed.

Definition lexical (b : abinds) : bool := match b with ALex _ => true | AMod _ => false end.

Lemma bound_place : forall A A' b b' s, lexical b = lexical b' ->
  place A b s = place A' b' s -> bound A b s = bound A' b' s.
Proof.
  intros A A' b b' s K P. unfold bound. rewrite P.
  destruct b, b'; try discriminate; auto.
Qed.

(* What writing does to each frame. *)
Definition agrees (A A' : astate) (s : sym) (f f' : aframe) : Prop :=
  apar f' = apar f /\ aexp f' = aexp f /\ lexical (abind f') = lexical (abind f) /\
  (forall t, abind f = AMod t -> abind f' = AMod t) /\
  (forall s', s' <> s -> place A' (abind f') s' = place A (abind f) s').

Lemma export_too_place : forall A f s v b s',
  (forall t, aexp f = Some t -> t < length (atabs A)) ->
  place (export_too A f s v) b s'
  = if s' =? s
    then match b with
         | ALex _ => place A b s
         | AMod t => match aexp f with
                     | Some t' => if t =? t'
                                  then match atab A t s with
                                       | Some _ => Some v | None => None end
                                  else atab A t s
                     | None => atab A t s
                     end
         end
    else place A b s'.
Proof.
  intros A f s v b s' W. unfold export_too. destruct b as [l|t]; simpl.
  - destruct (aexp f); simpl; destruct (Nat.eqb_spec s' s); subst; auto.
  - destruct (aexp f) as [t'|] eqn:E; simpl.
    + rewrite atab_with by auto. destruct (Nat.eqb_spec t t').
      * subst. destruct (Nat.eqb_spec s' s); subst; auto.
      * destruct (Nat.eqb_spec s' s); subst; auto.
    + destruct (Nat.eqb_spec s' s); subst; auto.
Qed.

Lemma export_too_frames : forall A f s v,
  frames (export_too A f s v) = frames A /\ ahs (export_too A f s v) = ahs A
  /\ astk (export_too A f s v) = astk A.
Proof. intros. unfold export_too. destruct (aexp f); auto. Qed.

Lemma write_places : forall A a f0 s v A', wf A -> nth_error (frames A) a = Some f0 ->
  write A a s v = (A', Done) ->
  length (frames A') = length (frames A) /\ ahs A' = ahs A /\ astk A' = astk A /\
  forall b f, nth_error (frames A) b = Some f ->
    exists f', nth_error (frames A') b = Some f' /\ agrees A A' s f f' /\
      (place A (abind f0) s <> None -> place A (abind f) s = None ->
       place A' (abind f') s = None) /\
      (b = a -> place A' (abind f') s = Some v).
Proof.
  intros A a f0 s v A' W N0 H. unfold write in H. rewrite N0 in H.
  assert (WE : forall t, aexp f0 = Some t -> t < length (atabs A))
    by (intros; eapply w_exp; eauto).
  assert (LA : a < length (frames A)) by (apply nth_error_Some; congruence).
  destruct (abind f0) as [l|t] eqn:B0.
  - destruct (pos s l) as [i|] eqn:P; [|discriminate].
    destruct (pos_at s l i P) as (w & Ni).
    set (f1 := mka (ALex (put l i v)) (aexp f0) (apar f0)) in *.
    set (A1 := with_frame A a f1) in *. inversion H; subst A'; clear H.
    destruct (export_too_frames A1 f0 s v) as (-> & -> & ->).
    split; [unfold A1; simpl; apply upd_len|]. split; [auto|]. split; [auto|].
    assert (PP : forall s', place A1 (ALex (put l i v)) s'
                  = if s' =? s then Some v else place A (ALex l) s').
    { intros s'. simpl. rewrite (pos_fst s' (put l i v) l) by apply put_fst.
      destruct (Nat.eqb_spec s' s).
      - subst. rewrite P, (put_nth _ _ _ _ _ _ Ni), Nat.eqb_refl. auto.
      - destruct (pos s' l) as [j|] eqn:Pj; auto.
        rewrite (put_nth _ _ _ _ _ _ Ni). destruct (Nat.eqb_spec j i); auto.
        subst. destruct (pos_at _ _ _ Pj). congruence. }
    intros b f N. destruct (Nat.eq_dec b a).
    + subst b. rewrite N0 in N. inversion N; subst f. clear N.
      exists f1. split.
      { unfold A1. simpl. rewrite upd_nth, Nat.eqb_refl.
        destruct (Nat.ltb_spec a (length (frames A))); [auto|lia]. }
      split; [|split].
      * unfold agrees. rewrite B0. repeat split; auto; try discriminate.
        intros s' Hs. unfold f1. simpl abind.
        rewrite export_too_place by auto. destruct (Nat.eqb_spec s' s); [tauto|].
        rewrite PP. destruct (Nat.eqb_spec s' s); tauto.
      * intros _ Q. rewrite B0 in Q. simpl in Q. rewrite P, Ni in Q. discriminate.
      * intros _. unfold f1. simpl abind. rewrite export_too_place, Nat.eqb_refl by auto.
        rewrite PP, Nat.eqb_refl. auto.
    + exists f. split.
      { unfold A1. simpl. rewrite upd_nth. destruct (Nat.eqb_spec b a); tauto. }
      split; [|split; [|tauto]].
      * unfold agrees. repeat split; auto. intros s' Hs.
        rewrite export_too_place by auto. destruct (Nat.eqb_spec s' s); [tauto|].
        destruct (abind f); auto.
      * intros _ Q. rewrite export_too_place, Nat.eqb_refl by auto.
        destruct (abind f) as [l'|t']; auto.
        change (atab A1 t' s) with (atab A t' s). simpl in Q. rewrite Q.
        destruct (aexp f0) as [t2|]; auto. destruct (t' =? t2); auto.
  - set (A1 := with_tab A t (fun s' => if s' =? s then Some v else atab A t s')) in *.
    inversion H; subst A'; clear H.
    assert (LT : t < length (atabs A)) by (eapply w_mod; eauto).
    assert (WE1 : forall t, aexp f0 = Some t -> t < length (atabs A1))
      by (intros; unfold A1; simpl; rewrite upd_len; auto).
    destruct (export_too_frames A1 f0 s v) as (-> & -> & ->).
    split; [auto|]. split; [auto|]. split; [auto|].
    assert (PT : forall t', atab A1 t' s = if t' =? t then Some v else atab A t' s).
    { intros. unfold A1. rewrite atab_with by auto.
      destruct (t' =? t); auto. rewrite Nat.eqb_refl. auto. }
    intros b f N. exists f. split; [auto|]. split; [|split].
    + unfold agrees. repeat split; auto. intros s' Hs.
      rewrite export_too_place by auto. destruct (Nat.eqb_spec s' s); [tauto|].
      destruct (abind f) as [l'|t']; auto. simpl. unfold A1. rewrite atab_with by auto.
      destruct (Nat.eqb_spec t' t); auto. destruct (Nat.eqb_spec s' s); [tauto|].
      subst; auto.
    + intros Q1 Q. rewrite export_too_place, Nat.eqb_refl by auto.
      destruct (abind f) as [l'|t']; auto. simpl in Q, Q1. rewrite PT.
      destruct (Nat.eqb_spec t' t); [subst; contradiction|]. rewrite Q.
      destruct (aexp f0) as [t2|]; auto. destruct (t' =? t2); auto.
    + intros ->. rewrite N0 in N. inversion N; subst f.
      rewrite export_too_place, Nat.eqb_refl by auto. rewrite B0, PT, Nat.eqb_refl.
      destruct (aexp f0) as [t2|]; auto. destruct (t =? t2); auto.
Qed.

Lemma look_write_other : forall A a s v A' s', wf A ->
  write A a s v = (A', Done) -> s' <> s ->
  forall k b, look k A' b s' = look k A b s'.
Proof.
  intros A a s v A' s' W H NE.
  destruct (nth_error (frames A) a) as [f0|] eqn:N0.
  2: { unfold write in H. rewrite N0 in H. discriminate. }
  destruct (write_places A a f0 s v A' W N0 H) as (L & _ & _ & Q).
  induction k; intros b; simpl; auto.
  destruct (nth_error (frames A) b) as [f|] eqn:N.
  - destruct (Q b f N) as (f' & N' & (E1 & _ & E2 & _ & E3) & _). rewrite N'.
    rewrite (bound_place A' A (abind f') (abind f) s'); auto.
    destruct (bound A (abind f) s'); auto. rewrite E1. destruct (apar f); auto.
  - assert (M : nth_error (frames A') b = None).
    { apply nth_error_None. rewrite L. apply nth_error_None. auto. }
    rewrite M. auto.
Qed.

Lemma bound_obj : forall A b s n, place A b s = Some (VObj n) ->
  bound A b s = Some (VObj n).
Proof. intros. unfold bound. rewrite H. auto. Qed.

Lemma bound_none : forall A b s, place A b s = None -> bound A b s = None.
Proof. intros. unfold bound. rewrite H. auto. Qed.

Lemma look_set : forall A b f0 s n A', wf A -> nth_error (frames A) b = Some f0 ->
  place A (abind f0) s <> None -> write A b s (VObj n) = (A', Done) ->
  forall k a, home k A a s = Some b -> look k A' a s = VObj n.
Proof.
  intros A b f0 s n A' W N0 P H.
  destruct (write_places A b f0 s _ A' W N0 H) as (L & _ & _ & Q).
  induction k; intros a HO; simpl in *; [discriminate|].
  destruct (nth_error (frames A) a) as [f|] eqn:N; [|discriminate].
  destruct (Q a f N) as (f' & N' & (E1 & _) & E3 & E4). rewrite N'.
  destruct (place A (abind f) s) eqn:PF.
  - inversion HO; subst a. rewrite (bound_obj _ _ _ _ (E4 eq_refl)). auto.
  - rewrite bound_none by auto. rewrite E1. destruct (apar f); [auto|discriminate].
Qed.

Lemma home_place : forall k A a s b, home k A a s = Some b ->
  exists f, nth_error (frames A) b = Some f /\ place A (abind f) s <> None.
Proof.
  induction k; intros A a s b H; simpl in H; [discriminate|].
  destruct (nth_error (frames A) a) as [f|] eqn:N; [|discriminate].
  destruct (place A (abind f) s) eqn:P.
  - inversion H; subst. exists f. split; auto. congruence.
  - destruct (apar f); [eauto|discriminate].
Qed.

Lemma look_define : forall A a s n A', wf A -> write A a s (VObj n) = (A', Done) ->
  look (length (frames A')) A' a s = VObj n.
Proof.
  intros A a s n A' W H.
  destruct (nth_error (frames A) a) as [f0|] eqn:N0.
  2: { unfold write in H. rewrite N0 in H. discriminate. }
  destruct (write_places A a f0 s _ A' W N0 H) as (L & _ & _ & Q).
  assert (a < length (frames A)) by (apply nth_error_Some; congruence).
  rewrite L. destruct (length (frames A)); [lia|]. simpl.
  destruct (Q a f0 N0) as (f' & N' & _ & _ & E). rewrite N'.
  rewrite (bound_obj _ _ _ _ (E eq_refl)). auto.
Qed.

Lemma write_err : forall A a s v A', write A a s v = (A', Error) -> A' = A.
Proof.
  intros A a s v A' H. unfold write in H. destruct (nth_error _ _); [|inversion H; auto].
  destruct (abind a0); [|discriminate]. destruct (pos s l); inversion H; auto.
Qed.

Lemma write_cases : forall A a s v, snd (write A a s v) = Done \/ write A a s v = (A, Error).
Proof.
  intros. unfold write. destruct (nth_error _ _); auto.
  destruct (abind a0); simpl; auto. destruct (pos s l); auto.
Qed.

Lemma aset_cases : forall A a s v, aset A a s v = (A, Error) \/
  exists b, aset A a s v = write A b s v /\ snd (write A b s v) = Done /\
    (home (length (frames A)) A a s = Some b
     \/ (home (length (frames A)) A a s = None /\ b = a)).
Proof.
  intros. unfold aset. destruct (home _ A a s) as [b|] eqn:HO.
  - destruct (nth_error (frames A) b); auto. destruct (imported a0); auto.
    destruct (write_cases A b s v) as [E|E]; [|auto]. right. exists b. auto.
  - destruct (write_cases A a s v) as [E|E]; [|auto]. right. exists a. auto.
Qed.

(* A pointer of the plain machine stands for one of the real machine. *)
Lemma ahandle_back : forall d al rk st A h b a, R d al rk st A ->
  ahandle A h = Some (b, a) ->
  exists x f, nth_error (hs st) h = Some x /\ frame st x = Some f /\ al x = a
    /\ b = dyn x f.
Proof.
  intros d al rk st A h b a H E. destruct (nth_error (hs st) h) as [x|] eqn:X.
  - rewrite (r_hs _ _ _ _ _ H h x X) in E. destruct (frame st x) as [f|] eqn:F; [|discriminate].
    inversion E; subst. eauto 6.
  - apply nth_error_None in X. rewrite (r_hlen _ _ _ _ _ H) in X.
    unfold ahandle in E. rewrite nth_overflow in E by auto. discriminate.
Qed.

Lemma look_fuel : forall d al rk st A h b a s k, R d al rk st A ->
  ahandle A h = Some (b, a) -> length (frames A) <= k ->
  look k A a s = look (length (frames A)) A a s.
Proof.
  intros d al rk st A h b a s k H E L.
  destruct (ahandle_back _ _ _ _ _ _ _ _ H E) as (x & f & X & F & <- & _).
  destruct (canon_spec d al rk st A x f H F) as (g & G & I & Ea & _).
  destruct (r_rk _ _ _ _ _ H _ _ G). rewrite <- Ea.
  rewrite <- (symeval_look d al rk st A H (length (heap st)) k (canon st x) g s) by (auto; lia).
  apply (symeval_look d al rk st A H _ _ _ g); auto.
Qed.

Lemma stk_false : forall d al rk st A h, R d al rk st A -> In h (astk A) ->
  exists a, ahandle A h = Some (false, a).
Proof.
  intros d al rk st A h H I. rewrite <- (r_stk _ _ _ _ _ H) in I.
  destruct (r_stkok _ _ _ _ _ H h I) as (x & f & X & F & N).
  rewrite (r_hs _ _ _ _ _ H h x X), F. exists (al x).
  destruct (dyn x f) eqn:D; auto. apply dyn_spec in D. contradiction.
Qed.

Lemma module_true : forall d al rk st A h b a, R d al rk st A ->
  ahandle A h = Some (b, a) -> amodule A a = true -> b = true.
Proof.
  intros d al rk st A h b a H E M.
  destruct (ahandle_back _ _ _ _ _ _ _ _ H E) as (x & f & X & F & <- & ->).
  destruct (dyn x f) eqn:D; auto.
  assert (N : fcopy f <> Some x) by (intros K; apply dyn_spec in K; congruence).
  destruct (r_sta _ _ _ _ _ H x f F N) as (_ & _ & (l & B) & _).
  destruct (canon_spec d al rk st A x f H F) as (g & G & _ & Ea & _ & _ & Es & Nn).
  unfold amodule in M. rewrite Nn in M. simpl in M. rewrite B in Es.
  destruct (fbind g); [discriminate|contradiction].
Qed.

Lemma look_app : forall A fs sk hs k a s,
  (forall a f p, nth_error (frames A) a = Some f -> apar f = Some p ->
     p < length (frames A)) -> a < length (frames A) ->
  look k (mks (frames A ++ fs) (atabs A) sk hs) a s = look k A a s.
Proof.
  intros A fs sk hs k. induction k; intros a s W L; simpl; auto.
  rewrite nth_error_app1 by auto.
  destruct (nth_error (frames A) a) as [f|] eqn:N; auto.
  assert (B : bound (mks (frames A ++ fs) (atabs A) sk hs) (abind f) s
              = bound A (abind f) s) by (destruct (abind f); auto).
  rewrite B. destruct (bound A (abind f) s); auto.
  destruct (apar f) eqn:P; auto. apply IHk; eauto.
Qed.

Lemma look_same : forall A sk hs k a s,
  look k (mks (frames A) (atabs A) sk hs) a s = look k A a s.
Proof.
  intros A sk hs k. induction k; intros a s; simpl; auto.
  destruct (nth_error (frames A) a) as [f|] eqn:N; auto.
  assert (B : bound (mks (frames A) (atabs A) sk hs) (abind f) s
              = bound A (abind f) s) by (destruct (abind f); auto).
  rewrite B. destruct (bound A (abind f) s); auto. destruct (apar f); auto.
Qed.

Lemma aref_same : forall A sk hs u a i,
  aref (mks (frames A) (atabs A) sk hs) a u i = aref A a u i.
Proof.
  intros A sk hs u. induction u; intros a i; simpl; auto.
  destruct (nth_error (frames A) a); auto. destruct (apar a0); auto.
Qed.

Lemma aref_app : forall A fs sk hs u a i,
  (forall a f p, nth_error (frames A) a = Some f -> apar f = Some p ->
     p < length (frames A)) -> a < length (frames A) ->
  aref (mks (frames A ++ fs) (atabs A) sk hs) a u i = aref A a u i.
Proof.
  intros A fs sk hs u. induction u; intros a i W L; simpl; rewrite nth_error_app1; auto.
  destruct (nth_error (frames A) a) as [f|] eqn:N; auto.
  destruct (apar f) eqn:P; auto. apply IHu; eauto.
Qed.

(* Pointers to modules and captured environments, module frames, their
   exports and the entries of tables stay. *)
Record keeps (A A' : astate) : Prop :=
  { k_hs : forall h a, ahandle A h = Some (true, a) -> ahandle A' h = Some (true, a);
    k_mod : forall a f t, nth_error (frames A) a = Some f -> abind f = AMod t ->
      exists f', nth_error (frames A') a = Some f' /\ abind f' = AMod t /\
        (forall t', aexp f = Some t' -> aexp f' = Some t');
    k_tab : forall t s, t < length (atabs A) -> atab A t s <> None ->
      t < length (atabs A') /\ atab A' t s <> None }.

Lemma keeps_refl : forall A, keeps A A.
Proof. constructor; eauto. Qed.

Lemma keeps_trans : forall A B C, keeps A B -> keeps B C -> keeps A C.
Proof.
  intros A B C [a1 b1 c1] [a2 b2 c2]. constructor; auto.
  - intros a f t N E. destruct (b1 a f t N E) as (f' & N' & E' & Q).
    destruct (b2 a f' t N' E') as (f2 & N2 & E2 & Q2). exists f2. auto.
  - intros t s L E. destruct (c1 t s L E). auto.
Qed.

Lemma keeps_ext : forall A fs ts sk hs,
  (forall h a, ahandle A h = Some (true, a) -> nth h hs None = Some (true, a)) ->
  (forall a f t, nth_error (frames A) a = Some f -> abind f = AMod t ->
      exists f', nth_error fs a = Some f' /\ abind f' = AMod t /\
        (forall t', aexp f = Some t' -> aexp f' = Some t')) ->
  (exists ts', ts = atabs A ++ ts') ->
  keeps A (mks fs ts sk hs).
Proof.
  intros A fs ts sk hs H1 H2 (ts' & ->). constructor; auto.
  intros t s L E. unfold atab in *. simpl. rewrite app_length, app_nth1; auto.
  split; auto. lia.
Qed.

Lemma keeps_tab : forall A t g,
  (forall s, atab A t s <> None -> g s <> None) -> keeps A (with_tab A t g).
Proof.
  intros A t g G. constructor; simpl; eauto.
  intros t' s L E. rewrite upd_len. split; auto.
  destruct (Nat.lt_ge_cases t (length (atabs A))).
  - rewrite atab_with by auto. destruct (Nat.eqb_spec t' t); subst; auto.
  - unfold atab, with_tab. simpl. rewrite upd_out; auto.
Qed.

Lemma keeps_export_too : forall A f s v, keeps A (export_too A f s v).
Proof.
  intros. unfold export_too. destruct (aexp f); [|apply keeps_refl].
  apply keeps_tab. intros s' E. destruct (Nat.eqb_spec s' s); subst; auto.
  destruct (atab A n s); congruence.
Qed.

Lemma keeps_lex : forall A a f l, nth_error (frames A) a = Some f ->
  abind f = ALex l -> forall g, keeps A (with_frame A a g).
Proof.
  intros A a f l N B g. apply keeps_ext; auto.
  - intros b h t Nb Bb. exists h. split; auto. rewrite upd_nth.
    destruct (Nat.eqb_spec b a); auto. subst. congruence.
  - exists []. rewrite app_nil_r; auto.
Qed.

Lemma keeps_write : forall A a s v, keeps A (fst (write A a s v)).
Proof.
  intros. unfold write. destruct (nth_error (frames A) a) eqn:N; [|apply keeps_refl].
  destruct (abind a0) eqn:B; simpl.
  - destruct (pos s l); simpl; [|apply keeps_refl].
    eapply keeps_trans; [|apply keeps_export_too]. eapply keeps_lex; eauto.
  - eapply keeps_trans; [|apply keeps_export_too]. apply keeps_tab.
    intros s' E. destruct (Nat.eqb_spec s' s); subst; auto. discriminate.
Qed.

Lemma keeps_aexports : forall A a, keeps A (fst (aexports A a)).
Proof.
  intros. unfold aexports. destruct (nth_error (frames A) a) as [f|] eqn:N; [|apply keeps_refl].
  destruct (aexp f) eqn:E; simpl; [apply keeps_refl|]. apply keeps_ext; eauto.
  intros b g t Nb Bb. rewrite upd_nth. destruct (Nat.eqb_spec b a).
  - subst. rewrite N in Nb. inversion Nb; subst g.
    assert (a < length (frames A)) by (apply nth_error_Some; congruence).
    destruct (Nat.ltb_spec a (length (frames A))); [|lia]. eexists. split; eauto.
    simpl. split; auto. congruence.
  - eauto.
Qed.

Lemma keeps_give : forall A b a, keeps A (fst (agive A b a)).
Proof.
  intros. unfold agive. simpl. apply keeps_ext; eauto.
  - intros h c E. unfold ahandle in E. rewrite app_nth1; auto.
    destruct (Nat.lt_ge_cases h (length (ahs A))); auto.
    rewrite nth_overflow in E by auto. discriminate.
  - exists []. rewrite app_nil_r; auto.
Qed.

Lemma keeps_app : forall A fs sk, keeps A (mks (frames A ++ fs) (atabs A) sk (ahs A)).
Proof.
  intros. apply keeps_ext; auto.
  - intros a f t N B. exists f. rewrite nth_error_app1; auto.
    apply nth_error_Some. congruence.
  - exists []. rewrite app_nil_r; auto.
Qed.

Lemma hs_grow : forall (hs : list (option (bool * nat))) x h v,
  nth h hs None = Some v -> nth h (hs ++ [x]) None = Some v.
Proof.
  intros. rewrite app_nth1; auto. destruct (Nat.lt_ge_cases h (length hs)); auto.
  rewrite nth_overflow in H by auto. discriminate.
Qed.

Lemma hs_upd : forall (hs : list (option (bool * nat))) i x h v,
  nth h hs None = Some v -> h <> i -> nth h (upd hs i x) None = Some v.
Proof.
  induction hs; intros; simpl in *; auto. destruct i, h; simpl; auto; try congruence.
Qed.

Lemma keeps_ause : forall A a m, keeps A (ause A a m).
Proof.
  intros. unfold ause. pose proof (keeps_aexports A m) as Q.
  destruct (aexports A m) as [A1 t]. simpl in Q. destruct (auses _ _ _ _); auto.
  destruct (nth_error (frames A1) a) as [f|] eqn:N; auto.
  eapply keeps_trans; [exact Q|]. apply keeps_ext; auto.
  - intros b g t' Nb Bb.
    assert (b < length (frames A1)) by (apply nth_error_Some; congruence).
    rewrite nth_error_app1 by (rewrite upd_len; auto). rewrite upd_nth.
    destruct (Nat.eqb_spec b a).
    + subst. rewrite N in Nb. inversion Nb; subst g.
      destruct (Nat.ltb_spec a (length (frames A1))); [|lia]. eexists. split; eauto.
    + eauto.
  - exists []. rewrite app_nil_r; auto.
Qed.

Lemma keeps_step : forall d al rk st A o, R d al rk st A -> keeps A (fst (astep A o)).
Proof.
  intros d al rk st A o H. destruct o; simpl.
  - destruct (ahandle_opt A h) as [p|] eqn:E; [|apply keeps_refl]. simpl.
    apply keeps_ext.
    + intros g a K. apply hs_grow; auto.
    + intros a f t N B. exists f. rewrite nth_error_app1; auto.
      apply nth_error_Some. congruence.
    + exists []. rewrite app_nil_r; auto.
  - destruct (astk A) as [|h r] eqn:S; [apply keeps_refl|]. simpl. apply keeps_ext; eauto.
    + intros g a K. apply hs_upd; auto. intros ->.
      destruct (stk_false _ _ _ _ _ h H) as (c & Q); [rewrite S; simpl; auto|]. congruence.
    + exists []. rewrite app_nil_r; auto.
  - destruct (ahandle A h) as [[b a]|]; [|apply keeps_refl]. apply keeps_give.
  - destruct (ahandle_opt A h) as [p|]; [|apply keeps_refl].
    eapply keeps_trans; [|apply keeps_give]. apply keeps_ext; eauto.
    intros a f t N B. exists f. rewrite nth_error_app1; auto.
    apply nth_error_Some. congruence.
  - destruct (ahandle_opt A h) as [p|]; [|apply keeps_refl].
    destruct (ahandle A m) as [[b y]|]; [|apply keeps_refl].
    destruct (amodule A y); [|apply keeps_refl]. pose proof (keeps_aexports A y) as Q.
    destruct (aexports A y) as [A1 t]. cbn [fst] in Q.
    eapply keeps_trans; [exact Q|]. eapply keeps_trans; [|apply keeps_give].
    apply keeps_app.
  - destruct (ahandle A m) as [[b y]|]; [|apply keeps_refl].
    destruct (amodule A y); [|apply keeps_refl]. pose proof (keeps_aexports A y) as Q.
    destruct (aexports A y) as [A1 t]. cbn [fst] in Q.
    destruct (nth_error (frames A1) y) as [f|]; auto. simpl.
    eapply keeps_trans; [exact Q|]. apply keeps_tab. intros s' E.
    destruct (Nat.eqb_spec s' s); auto. destruct (place A1 (abind f) s); discriminate.
  - destruct (ahandle A h) as [[b y]|]; [|apply keeps_refl].
    destruct (ahandle A m) as [[b' y']|]; [|apply keeps_refl].
    destruct (andb _ _); [apply keeps_ause|apply keeps_refl].
  - destruct (ahandle A h) as [[b y]|]; [|apply keeps_refl].
    destruct (ahandle A m) as [[b' y']|]; [|apply keeps_refl].
    destruct (andb _ _); [apply keeps_ause|apply keeps_refl].
  - destruct (ahandle A h) as [[b y]|]; [|apply keeps_refl].
    destruct (aset_cases A y s (VObj n)) as [-> | (c & -> & _)];
      [apply keeps_refl|apply keeps_write].
  - destruct (ahandle A h) as [[b y]|]; [apply keeps_write|apply keeps_refl].
  - destruct (ahandle A h) as [[b y]|]; [|apply keeps_refl].
    destruct (nth_error (frames A) y) as [f|]; [|apply keeps_refl].
    destruct (abind f); [apply keeps_write|apply keeps_refl].
  - destruct (ahandle A h) as [[[] y]|]; try apply keeps_refl.
    destruct (nth_error (frames A) y) as [f|] eqn:N; [|apply keeps_refl].
    destruct (abind f) eqn:B; [|apply keeps_refl].
    destruct (i <? length l); [|apply keeps_refl]. eapply keeps_lex; eauto.
  - destruct (astk A) as [|h' r] eqn:S; [apply keeps_refl|].
    destruct (Nat.eqb_spec h' h); [|apply keeps_refl]. subst h'.
    destruct (stk_false _ _ _ _ _ h H) as (c & Q); [rewrite S; simpl; auto|]. rewrite Q.
    destruct (nth_error (frames A) c) as [f|] eqn:N; [|apply keeps_refl].
    destruct (abind f) eqn:B; [|apply keeps_refl].
    destruct (length us =? length l); [|apply keeps_refl]. simpl. apply keeps_ext.
    + intros g a K. apply hs_upd; auto. congruence.
    + intros a g t Nn Bn. exists g. rewrite nth_error_app1; auto.
      apply nth_error_Some. congruence.
    + exists []. rewrite app_nil_r; auto.
  - destruct (ahandle A h) as [[b y]|]; apply keeps_refl.
  - destruct (ahandle A h) as [[b y]|]; apply keeps_refl.
Qed.

Lemma keeps_exec : forall d ops' ops, Forall (tame d) (ops ++ ops') ->
  keeps (aexec ops) (aexec (ops ++ ops')).
Proof.
  intros d ops'. induction ops' as [|o ops' IH] using rev_ind; intros ops T.
  - rewrite app_nil_r. apply keeps_refl.
  - rewrite app_assoc in *. apply Forall_app in T. destruct T as [T _].
    eapply keeps_trans; [apply IH; auto|]. rewrite aexec_app.
    destruct (exec_ok d _ T) as (al & rk & H). eapply keeps_step; eauto.
Qed.

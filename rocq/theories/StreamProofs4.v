(** What holds of every history of calls, with no discipline: a file opened
    read-only is not changed, only the writing calls change what the file will
    hold, and the buffer never holds more than it has room for. *)

From Coq Require Import List Arith ZArith NArith Bool Lia ZifyBool ZifyNat.
Import ListNotations.
From Verif Require Import StreamModel StreamSpec StreamProofs StreamProofs2.

(** ** Reading helpers leave the file alone *)

Definition same_file (s s' : stream) : Prop :=
  s'.(disk) = s.(disk) /\ s'.(wrt) = s.(wrt) /\ s'.(ro) = s.(ro).

Lemma same_refl : forall s, same_file s s.
Proof. repeat split. Qed.

Lemma same_trans : forall a b c, same_file a b -> same_file b c -> same_file a c.
Proof. intros a b c (A & B & C) (D & E & F). repeat split; congruence. Qed.

Lemma os_read_same : forall s n, same_file s (snd (os_read s n)).
Proof. repeat split. Qed.

Lemma fill_loop_same : forall fuel s need req got, same_file s (fill_loop fuel s need req got).
Proof.
  induction fuel as [|f IH]; intros s need req got; simpl; [apply same_refl|].
  destruct (got <? need); [|apply same_refl].
  match goal with |- context [match ?x with [] => _ | _ => _ end] =>
    match type of x with list N => destruct x end end.
  - repeat split.
  - match goal with |- same_file s (fill_loop f ?x _ _ _) =>
      apply (same_trans s x); [repeat split|apply IH] end.
Qed.

Lemma fill_same : forall s n, same_file s (fill s n).
Proof.
  intros s n. unfold fill. cbv zeta.
  match goal with |- context [if ?c then ?x else ?y] => destruct c end;
    match goal with |- same_file s (fill_loop _ ?x _ _ _) =>
      apply (same_trans s x); [repeat split|apply fill_loop_same] end.
Qed.

Lemma request_same : forall s n, same_file s (fst (request s n)).
Proof.
  intros s n. unfold request. destruct (_ <=? _); [apply same_refl|]. apply fill_same.
Qed.

Lemma read_same : forall s n, same_file s (fst (read_bytes s n)).
Proof.
  intros s n. unfold read_bytes. destruct (wrt s) eqn:W; [apply same_refl|].
  pose proof (request_same s n) as H. destruct (request s n) as [s1 ok]. simpl in H.
  destruct ok; [|exact H]. destruct H as (A & B & C). repeat split; auto.
Qed.

Lemma probe_same : forall s, same_file s (fst (probe_byte s)).
Proof.
  intros s. unfold probe_byte. destruct (wrt s) eqn:W; [apply same_refl|].
  pose proof (request_same s 1) as H. destruct (request s 1) as [s1 ok]. simpl in H.
  destruct ok; exact H.
Qed.

Lemma read_loop_same : forall fuel s need got, same_file s (fst (read_loop fuel s need got)).
Proof.
  induction fuel as [|f IH]; intros s need got; simpl;
    destruct (length got <? need); try apply same_refl.
  match goal with |- context [match ?x with [] => _ | _ => _ end] =>
    match type of x with list N => destruct x end end.
  - repeat split.
  - match goal with |- same_file s (fst (read_loop f ?x _ _)) =>
      apply (same_trans s x); [repeat split|apply IH] end.
Qed.

Lemma ints_loop_same : forall fuel s need got mem, same_file s (fst (ints_loop fuel s need got mem)).
Proof.
  induction fuel as [|f IH]; intros s need got mem; cbn [ints_loop];
    destruct (got <? need); try apply same_refl.
  unfold os_read.
  match goal with |- context [match ?x with [] => _ | _ => _ end] =>
    match type of x with list N => destruct x end end.
  - repeat split.
  - destruct (_ <? _); [repeat split|].
    match goal with |- same_file s (fst (ints_loop f ?x _ _ _)) =>
      apply (same_trans s x); [repeat split|apply IH] end.
Qed.

(** ** What the file will hold *)

(** The file's contents once what is buffered for output is written. *)
Definition content (s : stream) : list N :=
  if s.(wrt) then splice s.(disk) s.(off) s.(buf) else s.(disk).

(** A stream being written is not read-only. *)
Definition sane (s : stream) : Prop := s.(wrt) = true -> s.(ro) = false.

Definition keeps (s s' : stream) : Prop :=
  sane s' /\ content s' = content s /\ s'.(ro) = s.(ro) /\ (s.(ro) = true -> s'.(disk) = s.(disk)).

Lemma keeps_refl : forall s, sane s -> keeps s s.
Proof. intros s H. repeat split; auto. Qed.

Lemma keeps_trans : forall a b c, keeps a b -> keeps b c -> keeps a c.
Proof.
  intros a b c (A & B & C & D) (E & F & G & H). split; [auto|]. split; [congruence|].
  split; [congruence|]. intros Q. rewrite H by congruence. auto.
Qed.

Lemma same_keeps : forall s s', sane s -> s.(wrt) = false -> same_file s s' -> keeps s s'.
Proof.
  intros s s' H W (A & B & C). split; [|split; [|split]]; auto.
  - intros X. congruence.
  - unfold content. rewrite B, W. exact A.
Qed.

Lemma flush_keeps : forall s, sane s ->
  keeps s (fst (flush s)) /\ (fst (flush s)).(buf) = [] /\ (fst (flush s)).(wrt) = s.(wrt)
  /\ snd (flush s) = true.
Proof.
  intros s H. unfold flush. destruct (wrt s) eqn:W; cbn [negb].
  - specialize (H W). destruct (buf s) as [|x b] eqn:B.
    + simpl. split; auto. apply keeps_refl. intros _. exact H.
    + assert (Hn : x :: b <> []) by discriminate.
      set (w := x :: b) in *. clearbody w.
      rewrite (writeall_ok s w Hn H). simpl. split; auto.
      split; [|split; [|split]]; simpl; auto.
      * intros _. exact H.
      * unfold content. simpl. rewrite W, B. reflexivity.
      * congruence.
  - simpl. split; auto. split; [|split; [|split]]; simpl; auto.
    unfold content. simpl. rewrite W. reflexivity.
Qed.

Lemma move_keeps : forall s s', sane s -> s.(buf) = [] ->
  s'.(disk) = s.(disk) -> s'.(ro) = s.(ro) -> s'.(wrt) = s.(wrt) -> s'.(buf) = [] -> keeps s s'.
Proof.
  intros s s' H B D O W B'. split; [|split; [|split]]; auto.
  - intros X. rewrite O. apply H. congruence.
  - unfold content. rewrite W, D, B, B'. reflexivity.
Qed.

Lemma dir_read_keeps : forall s, sane s -> keeps s (dir_read s) /\ (dir_read s).(wrt) = false.
Proof.
  intros s H. unfold dir_read. destruct (wrt s) eqn:W; simpl; [|split; [apply keeps_refl; auto|auto]].
  destruct (flush_keeps s H) as ((A1 & A2 & A3 & A4) & B & C & D). destruct (flush s) as [s1 ok].
  simpl in *. subst ok. split; [|reflexivity].
  split; [|split; [|split]]; simpl; auto.
  - intros X. discriminate.
  - rewrite <- A2. unfold content. simpl. rewrite C, W, B. reflexivity.
Qed.

Lemma dir_write_keeps : forall s, sane s -> keeps s (dir_write s).
Proof.
  intros s H. unfold dir_write. destruct (wrt s) eqn:W; [apply keeps_refl; auto|].
  destruct (ro s) eqn:O; [apply keeps_refl; auto|].
  split; [|split; [|split]]; simpl; auto.
  - intros _. exact O.
  - unfold content. simpl. rewrite W. reflexivity.
Qed.

Lemma setpos_slow_keeps : forall s z, sane s -> keeps s (fst (setpos_slow s z)).
Proof.
  intros s z H. unfold setpos_slow. destruct (z <? 0)%Z; [apply keeps_refl; auto|].
  destruct (negb (wrt s) && _ && _) eqn:C; simpl.
  - apply andb_prop in C. destruct C as [C _]. apply andb_prop in C. destruct C as [C _].
    apply negb_true_iff in C. apply same_keeps; auto. repeat split.
  - destruct (flush_keeps s H) as (A & B & W & D). destruct (flush s) as [s1 ok].
    simpl in *. subst ok. simpl. eapply keeps_trans; [exact A|].
    apply move_keeps; simpl; auto. apply A.
Qed.

Lemma setpos_keeps : forall s z, sane s -> keeps s (fst (setpos s z)).
Proof.
  intros s z H. unfold setpos. destruct (z <? 0)%Z; [apply setpos_slow_keeps; auto|].
  destruct (negb (wrt s) && _ && _) eqn:C; simpl.
  - apply andb_prop in C. destruct C as [C _]. apply andb_prop in C. destruct C as [C _].
    apply negb_true_iff in C. apply same_keeps; auto. repeat split.
  - destruct (getpos s =? z)%Z; [apply keeps_refl; auto|apply setpos_slow_keeps; auto].
Qed.

Lemma setpos_reads : forall s z, s.(wrt) = false -> (fst (setpos s z)).(wrt) = false.
Proof.
  intros s z W. unfold setpos, setpos_slow, flush. rewrite W. cbn [negb].
  destruct (z <? 0)%Z; [auto|].
  destruct (true && _ && _); [auto|]. destruct (getpos s =? z)%Z; [auto|].
  destruct (true && _ && _); auto.
Qed.

Lemma endpos_slow_keeps : forall s, sane s -> keeps s (fst (endpos_slow s)).
Proof.
  intros s H. unfold endpos_slow.
  destruct (flush_keeps s H) as (A & B & W & D). destruct (flush s) as [s1 ok].
  simpl in *. eapply keeps_trans; [exact A|].
  apply move_keeps; simpl; auto. apply A.
Qed.

Lemma endpos_keeps : forall s, sane s -> keeps s (fst (endpos s)).
Proof.
  intros s H. unfold endpos. destruct (_ =? _); [|apply endpos_slow_keeps; auto].
  destruct (wrt s) eqn:W; simpl; apply keeps_refl; auto.
Qed.

Lemma start_read_keeps : forall s z, sane s -> keeps s (start_read s z) /\ (start_read s z).(wrt) = false.
Proof.
  intros s z H. unfold start_read. destruct (dir_read_keeps s H) as [A W].
  destruct (z <? 0)%Z; (split; [|apply setpos_reads; auto]);
    (eapply keeps_trans; [exact A|apply setpos_keeps; apply A]).
Qed.

Lemma start_write_keeps : forall s z, sane s -> keeps s (start_write s z).
Proof.
  intros s z H. unfold start_write. pose proof (dir_write_keeps s H) as A.
  destruct (z <? 0)%Z; (eapply keeps_trans; [exact A|]); [apply endpos_keeps|apply setpos_keeps]; apply A.
Qed.

(** The calls that write. *)
Definition writes (o : sop) : bool :=
  match o with Write _ | WriteAt _ _ | DirectWrite _ => true | _ => false end.

Lemma read_keeps : forall s n, sane s -> s.(wrt) = false -> keeps s (fst (read_bytes s n)).
Proof. intros. apply same_keeps; auto. apply read_same. Qed.

Lemma step_keeps : forall s o, sane s -> writes o = false -> keeps s (fst (step s o)).
Proof.
  intros s o H W. destruct o; try discriminate; cbn [step fst].
  - apply keeps_refl; auto.
  - pose proof (setpos_keeps s p H). destruct (setpos s p). auto.
  - pose proof (setpos_slow_keeps s p H). destruct (setpos_slow s p). auto.
  - unfold movepos. pose proof (setpos_keeps s (getpos s + d) H). destruct (setpos s (getpos s + d)). auto.
  - pose proof (endpos_keeps s H). destruct (endpos s). auto.
  - pose proof (endpos_slow_keeps s H). destruct (endpos_slow s). auto.
  - apply start_read_keeps; auto.
  - unfold start_read_slow. destruct (dir_read_keeps s H) as [A _].
    destruct (p <? 0)%Z; (eapply keeps_trans; [exact A|]); [apply endpos_keeps|apply setpos_keeps]; apply A.
  - apply start_write_keeps; auto.
  - apply dir_read_keeps; auto.
  - apply dir_write_keeps; auto.
  - destruct (wrt s) eqn:E; [|apply read_keeps; auto].
    unfold read_bytes. rewrite E. apply keeps_refl; auto.
  - destruct (wrt s) eqn:E; [|apply same_keeps; auto; apply probe_same].
    unfold probe_byte. rewrite E. apply keeps_refl; auto.
  - apply flush_keeps; auto.
  - destruct (flush_keeps s H) as (A & B & C & D). unfold setbufsize. cbv zeta.
    eapply keeps_trans; [exact A|]. apply move_keeps; simpl; auto. apply A.
  - unfold read_block. cbv zeta.
    assert (K : keeps s (if wrt s && (fpos s <? o + n) then dir_read s else s)).
    { destruct (wrt s && _); [apply dir_read_keeps; auto|apply keeps_refl; auto]. }
    destruct ((n =? 0) || _); exact K.
  - unfold read_at. destruct ((0 <=? p)%Z && _); [apply keeps_refl; auto|].
    destruct (0 <=? p)%Z.
    + destruct (start_read_keeps s p H) as [A B]. eapply keeps_trans; [exact A|].
      apply read_keeps; auto. apply A.
    + destruct (dir_read_keeps s H) as [A B]. eapply keeps_trans; [exact A|].
      apply read_keeps; auto. apply A.
  - unfold stream_read. destruct (dir_read_keeps s H) as [A B].
    pose proof (setpos_keeps (dir_read s) (getpos s) (proj1 A)) as C.
    pose proof (setpos_reads (dir_read s) (getpos s) B) as D.
    pose proof (read_loop_same n (fst (setpos (dir_read s) (getpos s))) n []) as E.
    destruct (read_loop n (fst (setpos (dir_read s) (getpos s))) n []) as [s2 r].
    assert (K : keeps s s2).
    { eapply keeps_trans; [exact A|]. eapply keeps_trans; [exact C|].
      apply same_keeps; auto. apply C. }
    destruct r; exact K.
  - unfold read_ints. destruct (dir_read_keeps s H) as [A B].
    pose proof (setpos_keeps (dir_read s) (getpos s) (proj1 A)) as C.
    pose proof (setpos_reads (dir_read s) (getpos s) B) as D.
    eapply keeps_trans; [exact A|]. eapply keeps_trans; [exact C|].
    apply same_keeps; auto; [apply C|]. apply ints_loop_same.
Qed.

Lemma close_content : forall s, sane s -> close_stream s = content s.
Proof.
  intros s H. unfold close_stream. destruct (wrt s) eqn:W; [|unfold content; rewrite W; reflexivity].
  destruct (flush_keeps s H) as ((_ & A & _) & B & C & _). rewrite <- A.
  unfold content. rewrite C, W, B. reflexivity.
Qed.

(** ** Read-only streams and the writing calls *)

Definition ro_ok (d : list N) (s : stream) : Prop := s.(ro) = true /\ s.(wrt) = false /\ s.(disk) = d.

Lemma keeps_ro : forall d s s', ro_ok d s -> keeps s s' -> ro_ok d s'.
Proof.
  intros d s s' (A & B & C) (D & E & F & G). repeat split.
  - congruence.
  - destruct (wrt s') eqn:W; auto. specialize (D W). congruence.
  - rewrite G by auto. exact C.
Qed.

Lemma ro_sane : forall d s, ro_ok d s -> sane s.
Proof. intros d s (A & B & C) X. congruence. Qed.

Lemma step_ro : forall d s o, ro_ok d s -> ro_ok d (fst (step s o)).
Proof.
  intros d s o H. pose proof (ro_sane d s H) as S0.
  destruct (writes o) eqn:W; [|eapply keeps_ro; [exact H|apply step_keeps; auto]].
  destruct o; try discriminate; cbn [step].
  - pose proof H as (A & B & C). unfold write_bytes. rewrite B. exact H.
  - unfold write_at.
    assert (K : ro_ok d (if (0 <=? p)%Z then start_write s p else dir_write s)).
    { destruct (0 <=? p)%Z; eapply keeps_ro; eauto; [apply start_write_keeps|apply dir_write_keeps]; auto. }
    set (s1 := if (0 <=? p)%Z then start_write s p else dir_write s) in *. clearbody s1.
    cbv zeta. destruct (_ <? _)%Z; [exact K|].
    assert (W1 : wrt s1 = false) by (destruct K as (_ & K & _); exact K). rewrite W1.
    eapply keeps_ro; [exact K|]. apply flush_keeps. eapply ro_sane; eauto.
  - unfold stream_write.
    assert (K : ro_ok d (fst (setpos (dir_write (dir_write s)) (getpos (dir_write s))))).
    { assert (K1 : ro_ok d (dir_write s)) by (eapply keeps_ro; [exact H|apply dir_write_keeps; auto]).
      assert (K2 : ro_ok d (dir_write (dir_write s))) by (eapply keeps_ro; [exact K1|apply dir_write_keeps; eapply ro_sane; eauto]).
      eapply keeps_ro; [exact K2|apply setpos_keeps; eapply ro_sane; eauto]. }
    set (s2 := fst (setpos (dir_write (dir_write s)) (getpos (dir_write s)))) in *. clearbody s2.
    assert (E : fst (writeall s2 bs) = s2).
    { unfold writeall. destruct bs; [reflexivity|]. destruct K as (-> & _). reflexivity. }
    destruct (writeall s2 bs) as [s3 ok]. simpl in E. subst s3.
    eapply keeps_ro; [exact K|apply setpos_keeps; eapply ro_sane; eauto].
Qed.

Lemma run_ro : forall l d s, ro_ok d s -> ro_ok d (fst (run s l)).
Proof.
  induction l as [|o l IH]; intros d s H; simpl; auto.
  pose proof (step_ro d s o H) as H1. destruct (step s o) as [s1 r]. simpl in H1.
  specialize (IH d s1 H1). destruct (run s1 l). auto.
Qed.

(** Every call leaves a sane state. *)
Lemma step_sane : forall s o, sane s -> sane (fst (step s o)) /\ (fst (step s o)).(ro) = s.(ro).
Proof.
  intros s o H. destruct (writes o) eqn:W.
  2:{ destruct (step_keeps s o H W) as (A & _ & B & _). auto. }
  destruct o; try discriminate; cbn [step].
  - unfold write_bytes. destruct (wrt s) eqn:E; cbn [negb]; [|auto].
    destruct (_ <=? _)%Z; [simpl; split; auto; intros _; auto|].
    unfold check_output. destruct (buf s) as [|x b] eqn:B.
    + simpl. unfold grow_out. destruct (_ <? _)%Z; simpl; split; auto; intros _; auto.
    + destruct (flush_keeps s H) as ((A1 & A2 & A3 & A4) & B1 & C & D).
      destruct (flush s) as [s1 ok]. simpl in *. subst ok. cbn [negb].
      destruct (_ <? _)%Z; [simpl; split; auto|].
      destruct (_ <? _)%Z; [simpl; split; auto|].
      unfold grow_out. destruct (_ <? _)%Z; simpl; split; auto.
  - unfold write_at. cbv zeta.
    assert (K : keeps s (if (0 <=? p)%Z then start_write s p else dir_write s)).
    { destruct (0 <=? p)%Z; [apply start_write_keeps|apply dir_write_keeps]; auto. }
    set (s1 := if (0 <=? p)%Z then start_write s p else dir_write s) in *. clearbody s1.
    destruct K as (K1 & K2 & K3 & _).
    destruct (_ <? _)%Z; [auto|]. destruct (wrt s1) eqn:W1.
    + assert (K4 : sane (set_buf s1 (buf s1 ++ bs) (pt s1))) by exact K1.
      destruct (flush_keeps _ K4) as ((A1 & A2 & A3 & A4) & _). split; auto. simpl in A3. simpl. rewrite A3. exact K3.
    + destruct (flush_keeps s1 K1) as ((A1 & A2 & A3 & A4) & _). split; auto. simpl. congruence.
  - unfold stream_write. cbv zeta.
    assert (K0 : keeps s (dir_write s)) by (apply dir_write_keeps; auto).
    assert (K1 : keeps s (dir_write (dir_write s))) by (eapply keeps_trans; [exact K0|apply dir_write_keeps; apply K0]).
    assert (K2 : keeps s (fst (setpos (dir_write (dir_write s)) (getpos (dir_write s)))))
      by (eapply keeps_trans; [exact K1|apply setpos_keeps; apply K1]).
    set (s2 := fst (setpos (dir_write (dir_write s)) (getpos (dir_write s)))) in *. clearbody s2.
    destruct K2 as (A & _ & B & _).
    assert (E : sane (fst (writeall s2 bs)) /\ ro (fst (writeall s2 bs)) = ro s2).
    { unfold writeall. destruct bs; [auto|]. destruct (ro s2) eqn:O; simpl; auto. }
    destruct (writeall s2 bs) as [s3 ok]. simpl in *. destruct E as [E1 E2].
    destruct (setpos_keeps s3 (getpos (dir_write s) + Z.of_nat (length bs)) E1) as (A1 & _ & A3 & _).
    simpl. split; auto. congruence.
Qed.

Lemma run_sane : forall l s, sane s -> sane (fst (run s l)).
Proof.
  induction l as [|o l IH]; intros s H; simpl; auto.
  pose proof (proj1 (step_sane s o H)) as H1. destruct (step s o) as [s1 r]. simpl in H1.
  specialize (IH s1 H1). destruct (run s1 l). auto.
Qed.

Lemma run_keeps : forall l s, sane s -> forallb (fun o => negb (writes o)) l = true ->
  keeps s (fst (run s l)).
Proof.
  induction l as [|o l IH]; intros s H W; simpl; [apply keeps_refl; auto|].
  simpl in W. apply andb_prop in W. destruct W as [W1 W2]. apply negb_true_iff in W1.
  pose proof (step_keeps s o H W1) as K. destruct (step s o) as [s1 r]. simpl in K.
  specialize (IH s1 (proj1 K) W2). destruct (run s1 l). simpl in *. eapply keeps_trans; eauto.
Qed.

Lemma run_app : forall a b s, fst (run s (a ++ b)) = fst (run (fst (run s a)) b).
Proof.
  induction a as [|o a IH]; intros b s; simpl; auto.
  destruct (step s o) as [s1 r]. specialize (IH b s1).
  destruct (run s1 (a ++ b)). destruct (run s1 a). simpl in *. exact IH.
Qed.

(** ** Room in the buffer *)

Definition fits (s : stream) : Prop :=
  (0 < s.(blen))%Z
  /\ if s.(wrt) then (0 < s.(lim) <= s.(blen))%Z /\ (Z.of_nat (length s.(buf)) <= s.(lim))%Z
     else s.(pt) <= length s.(buf) /\ (Z.of_nat (length s.(buf)) <= s.(blen))%Z.

Lemma fill_loop_fits : forall fuel s need req got,
  need <= req ->
  let s' := fill_loop fuel s need req got in
  s'.(wrt) = s.(wrt) /\ s'.(pt) = s.(pt) /\ s'.(blen) = s.(blen)
  /\ length s.(buf) <= length s'.(buf)
  /\ length s'.(buf) <= length s.(buf) + (req - got).
Proof.
  induction fuel as [|f IH]; intros s need req got Hn; cbn [fill_loop].
  - repeat split; auto; lia.
  - destruct (Nat.ltb_spec got need); [|repeat split; auto; lia].
    unfold os_read.
    set (k0 := match chunks s with [] => req - got | c :: _ => Nat.min (req - got) (S c) end).
    assert (Hk : k0 <= req - got) by (unfold k0; destruct (chunks s); lia).
    assert (Hl : length (slice (disk s) (off s) k0) <= k0) by (rewrite len_slice; lia).
    destruct (slice (disk s) (off s) k0) as [|b bs] eqn:E.
    + simpl. repeat split; auto; lia.
    + rewrite <- E in *. clear E.
      set (x := slice (disk s) (off s) k0) in *. clearbody x.
      match goal with |- context [fill_loop f ?y need req ?g] =>
        pose proof (IH y need req g Hn) as K end.
      simpl in K. simpl. rewrite app_length in K. destruct K as (K1 & K2 & K3 & K4 & K5).
      repeat split; auto; lia.
Qed.

Lemma fill_fits : forall s n, fits s -> s.(wrt) = false -> fits (fill s n) /\ (fill s n).(wrt) = false.
Proof.
  intros s n [H1 H2] W. rewrite W in H2. unfold fill. cbv zeta.
  set (b := skipn (pt s) (buf s)).
  assert (Hb : length b = length (buf s) - pt s) by (unfold b; apply skipn_length).
  match goal with |- context [if ?c then ?x else ?y] => set (s2 := if c then x else y) end.
  assert (S2 : wrt s2 = false /\ pt s2 = 0 /\ buf s2 = b /\ (blen s <= blen s2)%Z /\ (Z.of_nat n <= blen s2)%Z).
  { unfold s2. simpl. destruct (Z.ltb_spec (blen s) (Z.of_nat n)); simpl.
    - destruct (Z.leb_spec (blen s) 0); [lia|].
      destruct (double_ge n 0x40000 (blen s) (Z.of_nat n)); try lia. repeat split; auto; lia.
    - repeat split; auto; lia. }
  clearbody s2. destruct S2 as (A1 & A2 & A3 & A4 & A5).
  destruct (fill_loop_fits n s2 (n - length b) (Z.to_nat (blen s2) - length b) 0) as (K1 & K2 & K3 & K4 & K5).
  { lia. }
  set (s' := fill_loop n s2 (n - length b) (Z.to_nat (blen s2) - length b) 0) in *. clearbody s'.
  rewrite A3 in *. unfold fits. rewrite K1, A1, K2, A2, K3. repeat split; auto; lia.
Qed.

Lemma request_fits : forall s n, fits s -> s.(wrt) = false ->
  fits (fst (request s n)) /\ (fst (request s n)).(wrt) = false
  /\ (snd (request s n) = true -> (fst (request s n)).(pt) + n <= length (fst (request s n)).(buf)).
Proof.
  intros s n H W. unfold request. destruct (Nat.leb_spec (pt s + n) (length (buf s))); simpl.
  - auto.
  - destruct (fill_fits s n H W). repeat split; auto; try apply H1.
    intros X. apply Nat.leb_le in X. exact X.
Qed.

Lemma read_fits : forall s n, fits s -> fits (fst (read_bytes s n)) /\ snd (read_bytes s n) <> OFault.
Proof.
  intros s n H. unfold read_bytes. destruct (wrt s) eqn:W; [split; [auto|discriminate]|].
  destruct (request_fits s n H W) as (A & B & C). destruct (request s n) as [s1 ok]. simpl in *.
  destruct ok; (split; [|discriminate]); [|auto].
  specialize (C eq_refl). unfold fits in *. simpl. rewrite B in *. repeat split; try tauto; lia.
Qed.

Lemma probe_fits : forall s, fits s -> fits (fst (probe_byte s)) /\ snd (probe_byte s) <> OFault.
Proof.
  intros s H. unfold probe_byte. destruct (wrt s) eqn:W; [split; [auto|discriminate]|].
  destruct (request_fits s 1 H W) as (A & B & C). destruct (request s 1) as [s1 ok]. simpl in *.
  destruct ok; split; auto; discriminate.
Qed.

Lemma flush_fits : forall s, sane s -> fits s -> fits (fst (flush s)) /\ (fst (flush s)).(lim) = s.(lim)
  /\ (fst (flush s)).(blen) = s.(blen).
Proof.
  intros s H [F1 F2]. unfold flush. destruct (wrt s) eqn:W; cbn [negb].
  - specialize (H W). destruct (buf s) as [|x b] eqn:B.
    + simpl. unfold fits. rewrite W, B. auto.
    + rewrite (writeall_ok s (x :: b)); auto; [|discriminate]. simpl.
      unfold fits. simpl. rewrite W. repeat split; try lia.
  - simpl. unfold fits. simpl. rewrite W. repeat split; auto; lia.
Qed.

Lemma dir_read_fits : forall s, sane s -> fits s -> fits (dir_read s).
Proof.
  intros s H F. unfold dir_read. destruct (wrt s) eqn:W; simpl; auto.
  destruct (flush_fits s H F) as (A & B & C). destruct (flush_keeps s H) as (_ & D & E & G).
  destruct (flush s) as [s1 ok]. simpl in *. subst ok.
  unfold fits in *. rewrite E, W in A. simpl. repeat split; try lia.
Qed.

Lemma dir_write_fits : forall s, fits s -> fits (dir_write s).
Proof.
  intros s F. unfold dir_write. destruct (wrt s) eqn:W; auto. destruct (ro s); auto.
  unfold fits in *. rewrite W in F. simpl. repeat split; try lia.
Qed.

Lemma setpos_slow_fits : forall s z, sane s -> fits s -> fits (fst (setpos_slow s z)).
Proof.
  intros s z H F. unfold setpos_slow. destruct (z <? 0)%Z; auto.
  destruct (negb (wrt s) && _ && _) eqn:C; simpl.
  - apply andb_prop in C. destruct C as [C C3]. apply andb_prop in C. destruct C as [C C2].
    apply negb_true_iff in C. unfold fits in *. simpl. rewrite C in *. repeat split; try tauto; lia.
  - destruct (flush_fits s H F) as (A & _). destruct (flush_keeps s H) as (_ & _ & _ & G).
    destruct (flush s) as [s1 ok]. simpl in *. subst ok. exact A.
Qed.

Lemma setpos_fits : forall s z, sane s -> fits s -> fits (fst (setpos s z)).
Proof.
  intros s z H F. unfold setpos. destruct (z <? 0)%Z eqn:Z0; [apply setpos_slow_fits; auto|].
  destruct (negb (wrt s) && _ && _) eqn:C; simpl.
  - apply andb_prop in C. destruct C as [C C3]. apply andb_prop in C. destruct C as [C C2].
    apply negb_true_iff in C. unfold fits in *. simpl. rewrite C in *. repeat split; try tauto; lia.
  - destruct (getpos s =? z)%Z; [auto|apply setpos_slow_fits; auto].
Qed.

Lemma endpos_slow_fits : forall s, sane s -> fits s -> fits (fst (endpos_slow s)).
Proof.
  intros s H F. unfold endpos_slow. destruct (flush_fits s H F) as (A & _).
  destruct (flush s) as [s1 ok]. exact A.
Qed.

Lemma endpos_fits : forall s, sane s -> fits s -> fits (fst (endpos s)).
Proof.
  intros s H F. unfold endpos. destruct (_ =? _); [|apply endpos_slow_fits; auto].
  destruct (wrt s); auto.
Qed.

Lemma start_read_fits : forall s z, sane s -> fits s -> fits (start_read s z).
Proof.
  intros s z H F. unfold start_read. destruct (dir_read_keeps s H) as [(A & _) _].
  destruct (z <? 0)%Z; apply setpos_fits; auto; apply dir_read_fits; auto.
Qed.

Lemma start_write_fits : forall s z, sane s -> fits s -> fits (start_write s z).
Proof.
  intros s z H F. unfold start_write. destruct (dir_write_keeps s H) as (A & _).
  destruct (z <? 0)%Z; [apply endpos_fits|apply setpos_fits]; auto; apply dir_write_fits; auto.
Qed.

Lemma grow_fits : forall s n, s.(wrt) = true -> fits s ->
  (s.(lim) <= Z.of_nat (length s.(buf)) + Z.of_nat n)%Z ->
  fits (grow_out s n) /\ (grow_out s n).(wrt) = true /\ (grow_out s n).(buf) = s.(buf)
  /\ (Z.of_nat (length s.(buf)) + Z.of_nat n <= (grow_out s n).(lim))%Z.
Proof.
  intros s n W F H. unfold fits in F. rewrite W in F. unfold grow_out.
  destruct (Z.ltb_spec (Z.of_nat (length (buf s)) + Z.of_nat n) (lim s)); [lia|].
  destruct (Z.leb_spec (lim s) 0); [lia|].
  destruct (double_ge (length (buf s) + n) 250000 (lim s) (Z.of_nat (length (buf s)) + Z.of_nat n)); try lia.
  unfold fits. simpl. rewrite W. repeat split; auto; lia.
Qed.

Lemma append_fits : forall s bs, s.(wrt) = true -> fits s ->
  (Z.of_nat (length s.(buf)) + Z.of_nat (length bs) <= s.(lim))%Z ->
  fits (set_buf s (s.(buf) ++ bs) s.(pt)).
Proof.
  intros s bs W F H. unfold fits in *. simpl. rewrite W in *. rewrite app_length.
  repeat split; try tauto; try lia.
Qed.

Lemma write_fits : forall s bs, sane s -> fits s ->
  fits (fst (write_bytes s bs)) /\ snd (write_bytes s bs) <> OFault.
Proof.
  intros s bs H F. unfold write_bytes. destruct (wrt s) eqn:W; cbn [negb]; [|split; [auto|discriminate]].
  destruct (Z.leb_spec (Z.of_nat (length (buf s)) + Z.of_nat (length bs)) (lim s)) as [L|L].
  { split; [|discriminate]. apply append_fits; auto. }
  assert (C : exists s1, check_output s (length bs) = Some s1 /\ wrt s1 = true /\ fits s1
     /\ (Z.of_nat (length (buf s1)) + Z.of_nat (length bs) <= lim s1)%Z).
  { unfold check_output. destruct (buf s) as [|x b] eqn:B.
    - destruct (grow_fits s (length bs) W F) as (G1 & G2 & G3 & G4).
      { rewrite B. lia. }
      eexists. split; [reflexivity|]. rewrite G3, B in *. auto.
    - destruct (flush_fits s H F) as (A & A1 & A2). destruct (flush_keeps s H) as (_ & D & E & G).
      destruct (flush s) as [s1 ok]. simpl in A, A1, A2, D, E, G. subst ok. cbn [negb].
      rewrite W in E. rewrite D. cbn [length].
      destruct (Z.ltb_spec (Z.of_nat 0 + Z.of_nat (length bs)) (lim s1)).
      { exists s1. split; [reflexivity|]. rewrite D. cbn [length]. repeat split; auto; try apply A; lia. }
      unfold fits in A. rewrite E in A.
      destruct (Z.ltb_spec (Z.of_nat 0 + Z.of_nat (length bs)) (blen s1)).
      { eexists. split; [reflexivity|]. simpl. unfold fits. simpl. rewrite D, E. simpl. repeat split; try lia. }
      destruct (grow_fits s1 (length bs) E) as (G1 & G2 & G3 & G4).
      { unfold fits. rewrite E. exact A. }
      { rewrite D. cbn [length]. lia. }
      eexists. split; [reflexivity|]. rewrite G3, D in *. auto. }
  destruct C as (s1 & -> & W1 & F1 & L1). split; [|discriminate]. apply append_fits; auto.
Qed.

Lemma read_loop_fits : forall fuel s need got, fits s -> fits (fst (read_loop fuel s need got)).
Proof.
  induction fuel as [|f IH]; intros s need got F; cbn [read_loop];
    destruct (length got <? need); auto.
  unfold os_read.
  match goal with |- context [match ?x with [] => _ | _ => _ end] =>
    match type of x with list N => destruct x end end; [exact F|].
  apply IH. exact F.
Qed.

Lemma ints_loop_fits : forall fuel s need got mem, fits s -> fits (fst (ints_loop fuel s need got mem)).
Proof.
  induction fuel as [|f IH]; intros s need got mem F; cbn [ints_loop];
    destruct (got <? need); auto.
  unfold os_read.
  match goal with |- context [match ?x with [] => _ | _ => _ end] =>
    match type of x with list N => destruct x end end; [exact F|].
  destruct (_ <? _); [exact F|]. apply IH. exact F.
Qed.

(** Calls that test for room before storing. *)
Definition guarded (o : sop) : bool :=
  match o with WriteAt _ _ | ReadInts _ => false | _ => true end.

(** Sizes asked for are positive (zero and negative sizes mean something
    else and are not modelled). *)
Definition good_size (o : sop) : Prop := match o with SetBuf n => (0 < n)%Z | _ => True end.

Lemma opt_out_nofault : forall r, opt_out r <> OFault.
Proof. intros []; discriminate. Qed.

Lemma step_fits : forall s o, sane s -> fits s -> good_size o ->
  fits (fst (step s o)) /\ (guarded o = true -> snd (step s o) <> OFault).
Proof.
  intros s o H F G. destruct o; cbn [step guarded].
  - split; [auto|discriminate].
  - pose proof (setpos_fits s p H F). destruct (setpos s p). split; [auto|intros _; apply opt_out_nofault].
  - pose proof (setpos_slow_fits s p H F). destruct (setpos_slow s p). split; [auto|intros _; apply opt_out_nofault].
  - unfold movepos. pose proof (setpos_fits s (getpos s + d) H F). destruct (setpos s (getpos s + d)). split; [auto|intros _; apply opt_out_nofault].
  - pose proof (endpos_fits s H F). destruct (endpos s). split; [auto|discriminate].
  - pose proof (endpos_slow_fits s H F). destruct (endpos_slow s). split; [auto|discriminate].
  - split; [apply start_read_fits; auto|discriminate].
  - split; [|discriminate]. unfold start_read_slow. destruct (dir_read_keeps s H) as [(A & _) _].
    simpl. destruct (p <? 0)%Z; [apply endpos_fits|apply setpos_fits]; auto; apply dir_read_fits; auto.
  - split; [apply start_write_fits; auto|discriminate].
  - split; [apply dir_read_fits; auto|discriminate].
  - split; [apply dir_write_fits; auto|discriminate].
  - destruct (read_fits s n F). auto.
  - destruct (probe_fits s F). auto.
  - destruct (write_fits s bs H F). auto.
  - split; [apply flush_fits; auto|discriminate].
  - split; [|discriminate]. simpl. destruct (flush_fits s H F) as (A & B & C).
    destruct (flush_keeps s H) as (_ & D & E & _). unfold setbufsize.
    set (s1 := fst (flush s)) in *. clearbody s1. simpl in G. unfold fits in *. simpl.
    rewrite D in *. simpl in *. destruct (wrt s1); repeat split; try lia; destruct (Z.ltb_spec (lim s1) n); lia.
  - unfold read_block. cbv zeta.
    assert (K : fits (if wrt s && (fpos s <? o + n) then dir_read s else s)).
    { destruct (wrt s && _); [apply dir_read_fits; auto|auto]. }
    destruct ((n =? 0) || _); split; auto; discriminate.
  - unfold read_at. destruct ((0 <=? p)%Z && _); [split; [auto|discriminate]|].
    destruct (0 <=? p)%Z.
    + destruct (read_fits (start_read s p) n) as [A B]; [apply start_read_fits; auto|auto].
    + destruct (read_fits (dir_read s) n) as [A B]; [apply dir_read_fits; auto|auto].
  - split; [|discriminate]. unfold write_at. cbv zeta.
    assert (K : sane (if (0 <=? p)%Z then start_write s p else dir_write s)
                /\ fits (if (0 <=? p)%Z then start_write s p else dir_write s)).
    { destruct (0 <=? p)%Z; split.
      - apply start_write_keeps; auto.
      - apply start_write_fits; auto.
      - apply dir_write_keeps; auto.
      - apply dir_write_fits; auto. }
    set (s1 := if (0 <=? p)%Z then start_write s p else dir_write s) in *. clearbody s1.
    destruct K as [K1 K2]. destruct (Z.ltb_spec (blen s1) (Z.of_nat (if wrt s1 then length (buf s1) else pt s1) + Z.of_nat (length bs))); [auto|].
    destruct (wrt s1) eqn:W1; simpl; [|apply flush_fits; auto].
    specialize (K1 W1). set (w := buf s1 ++ bs) in *. unfold flush. cbn [set_buf wrt buf]. rewrite W1. cbn [negb].
    destruct w as [|x b] eqn:B; subst w.
    + apply app_eq_nil in B. destruct B as [B _]. unfold fits in *. simpl. rewrite W1 in *. simpl. repeat split; try tauto; lia.
    + rewrite (writeall_ok (set_buf s1 (x :: b) (pt s1)) (x :: b)); auto; [|discriminate]. simpl. unfold fits in *. simpl. rewrite W1 in *. simpl. repeat split; try tauto; lia.
  - split.
    + unfold stream_write. cbv zeta.
      assert (K0 : keeps s (dir_write s)) by (apply dir_write_keeps; auto).
      assert (K1 : keeps s (dir_write (dir_write s))) by (eapply keeps_trans; [exact K0|apply dir_write_keeps; apply K0]).
      assert (K2 : keeps s (fst (setpos (dir_write (dir_write s)) (getpos (dir_write s)))))
        by (eapply keeps_trans; [exact K1|apply setpos_keeps; apply K1]).
      assert (F2 : fits (fst (setpos (dir_write (dir_write s)) (getpos (dir_write s))))).
      { apply setpos_fits; [apply K1|]. repeat apply dir_write_fits. auto. }
      set (s2 := fst (setpos (dir_write (dir_write s)) (getpos (dir_write s)))) in *. clearbody s2.
      destruct K2 as (A & _ & B & _).
      assert (E : sane (fst (writeall s2 bs)) /\ fits (fst (writeall s2 bs))).
      { unfold writeall. destruct bs; [auto|]. destruct (ro s2) eqn:O; simpl; auto. }
      destruct (writeall s2 bs) as [s3 ok]. simpl in *. apply setpos_fits; tauto.
    + intros _. unfold stream_write. cbv zeta.
      destruct (writeall _ bs) as [s3 ok]. simpl. destruct ok; discriminate.
  - destruct (dir_read_keeps s H) as [(A & _) _].
    unfold stream_read. cbv zeta.
    pose proof (read_loop_fits n (fst (setpos (dir_read s) (getpos s))) n []
                  (setpos_fits _ _ A (dir_read_fits s H F))) as K.
    destruct (read_loop n (fst (setpos (dir_read s) (getpos s))) n []) as [s2 [r|]]; split; auto; discriminate.
  - split; [|discriminate]. destruct (dir_read_keeps s H) as [(A & _) _].
    unfold read_ints. apply ints_loop_fits. apply setpos_fits; auto. apply dir_read_fits; auto.
Qed.

Lemma run_fits : forall l s, sane s -> fits s -> Forall good_size l ->
  fits (fst (run s l))
  /\ forall i o, nth_error l i = Some o -> guarded o = true ->
     nth_error (snd (run s l)) i <> Some OFault.
Proof.
  induction l as [|o l IH]; intros s H F G; simpl.
  - split; auto. intros [|i] o X; discriminate.
  - inversion G as [|? ? G1 G2]; subst.
    destruct (step_fits s o H F G1) as [A B]. pose proof (proj1 (step_sane s o H)) as C.
    destruct (step s o) as [s1 r]. simpl in *. destruct (IH s1 C A G2) as [D E].
    destruct (run s1 l) as [s2 rs]. simpl in *. split; auto.
    intros [|i] o' X Y; simpl in *.
    + injection X as ->. specialize (B Y). congruence.
    + apply (E i o'); auto.
Qed.

(** * Property C41: reference counts. *)
From Verif Require Import BytesModel RefsModel.
Local Open Scope N_scope.

(** ** One object, many threads: specification *)
(** Executions: any interleaving, as long as there are never more than [most] references; a
    reference being given back counts until the decrement is done. *)
Definition refs_of (s : shared) : N :=
  floating s + fold_right (fun t a => fst t + (match snd t with DecLoaded _ => 1 | _ => 0 end) + a) 0 (threads s).
Inductive reach (h : hdr) (most : N) : shared -> shared -> Prop :=
| reach_refl s : reach h most s s
| reach_step s s1 s2 i a : reach h most s s1 -> exec h s1 i a = Some s2 -> refs_of s2 <= most -> reach h most s s2.
(** A new object with one reference, owned by the first of n+1 threads. *)
Definition fresh (ty : N) (n : nat) : shared :=
  {| head := 0x80 + ty; freed := 0; touched := false; floating := 0; threads := (1, Idle) :: repeat (0, Idle) n |}.
Definition all_idle (s : shared) : Prop := Forall (fun t => snd t = Idle) (threads s).
Definition nobody_raised (s : shared) : Prop := Forall (fun t => snd t <> Raised) (threads s).

(** ** Proof *)
Definition psum (f : N * pc -> N) (l : list (N * pc)) : N := fold_right (fun t a => f t + a) 0 l.
Lemma psum_upd f : forall l i x y, nth_error l i = Some x -> psum f (upd l i y) + f x = psum f l + f y.
Proof.
  induction l as [|z l IH]; intros [|i] x y H; try discriminate; simpl in *.
  - injection H as ->. lia.
  - specialize (IH i x y H). lia.
Qed.
Lemma upd_len : forall l i y, length (upd l i y) = length l.
Proof. induction l as [|z l IH]; intros [|i] y; simpl; auto. Qed.
Lemma upd_in : forall l i x y z, nth_error l i = Some x -> In z (upd l i y) -> z = y \/ In z l.
Proof.
  induction l as [|w l IH]; intros [|i] x y z H; try discriminate; simpl in *.
  - intros [<-|Hz]; auto.
  - intros [<-|Hz]; auto. destruct (IH i x y z H Hz); auto.
Qed.
Lemma psum_zero f l t : psum f l = 0 -> In t l -> f t = 0.
Proof. induction l as [|z l IH]; intros H []; subst; simpl in H; [lia|]. apply IH; [lia|assumption]. Qed.
Lemma psum_one f l i t : nth_error l i = Some t -> f t <= psum f l.
Proof. revert i. induction l as [|z l IH]; intros [|i] H; try discriminate; simpl in *; [injection H as ->; lia|]. specialize (IH i H). lia. Qed.

Definition f_own (t : N * pc) : N := fst t.
Definition f_dec (t : N * pc) : N := match snd t with DecLoaded _ => 1 | _ => 0 end.
Definition f_kill (t : N * pc) : N := match snd t with DecZero _ | DecStored => 1 | _ => 0 end.
(** Values read are values a header may have; a thread in incref still owns a reference. *)
Definition th_ok (h : hdr) (ty : N) (t : N * pc) : Prop :=
  match snd t with
  | IncLoaded cb => 0 < fst t /\ 0x80 <= cb <= max_refcount h
  | DecLoaded cb => 0x80 <= cb <= max_refcount h
  | DecZero old => old = 0x80 + ty
  | Raised => False
  | _ => True
  end.
Record inv (h : hdr) (ty : N) (s : shared) : Prop := {
  i_touched : touched s = false;
  i_threads : Forall (th_ok h ty) (threads s);
  i_count : let T := floating s + psum f_own (threads s) + psum f_dec (threads s) in
    (freed s = 0 /\ psum f_kill (threads s) = 0 /\ 0 < T /\ head s = 0x80 * T + ty) \/
    (T = 0 /\ freed s + psum f_kill (threads s) = 1) }.
(** Header formats: room for [most] references. *)
Definition room (h : hdr) (ty most : N) : Prop :=
  ty < 0x80 /\ 0x80 * most + ty <= max_refcount h /\ max_refcount h + 0x100 <= modulus h + 0x80.

Lemma refs_of_eq s : refs_of s = floating s + psum f_own (threads s) + psum f_dec (threads s).
Proof. unfold refs_of. rewrite <- N.add_assoc. f_equal. induction (threads s) as [|t l IH]; [reflexivity|]. simpl. rewrite IH. unfold f_own, f_dec. lia. Qed.
Lemma upd_forall P l i x : Forall P l -> P x -> Forall P (upd l i x).
Proof. intros H Hx. revert i. induction H as [|y l Hy Hl IH]; intros [|i]; simpl; constructor; auto. Qed.

Lemma exec_inv h ty most s i a s' : room h ty most -> inv h ty s ->
  refs_of s <= most -> exec h s i a = Some s' -> refs_of s' <= most -> inv h ty s'.
Proof.
  intros (R1 & R2 & R3) [I1 I2 I3] B E B'. rewrite refs_of_eq in B, B'. unfold exec in E.
  destruct (nth_error (threads s) i) as [[own p]|] eqn:Ht; [|discriminate].
  assert (OK : th_ok h ty (own, p)) by (rewrite Forall_forall in I2; apply I2; now apply nth_error_In in Ht).
  pose proof (fun f y => psum_upd f (threads s) i (own, p) y Ht) as PU.
  pose proof (psum_one f_own _ _ _ Ht) as O1. pose proof (psum_one f_dec _ _ _ Ht) as O2. pose proof (psum_one f_kill _ _ _ Ht) as O3.
  cbv zeta in I3.
  assert (FIN : forall hd fr own' p', th_ok h ty (own', p') ->
    (let T := fr + psum f_own (upd (threads s) i (own', p')) + psum f_dec (upd (threads s) i (own', p')) in
     (freed s = 0 /\ psum f_kill (upd (threads s) i (own', p')) = 0 /\ 0 < T /\ hd = 0x80 * T + ty) \/
     (T = 0 /\ freed s + psum f_kill (upd (threads s) i (own', p')) = 1)) ->
    forall tc, tc = false -> inv h ty {| head := hd; freed := freed s; touched := tc; floating := fr; threads := upd (threads s) i (own', p') |}).
  { intros hd fr own' p' H1 H2 tc ->. constructor; simpl; [reflexivity| |exact H2]. now apply upd_forall. }
  destruct a; destruct p as [|cb|cb|old| |]; try discriminate; unfold th_ok in OK; cbn [fst snd] in OK;
    unfold f_own, f_dec, f_kill in O1, O2, O3; cbn [fst snd] in O1, O2, O3; fold f_own f_dec f_kill in O1, O2, O3.
  - (* IncLoad *)
    destruct (N.ltb_spec 0 own) as [L|L]; [|discriminate]. injection E as <-.
    assert (F0 : freed s = 0 /\ psum f_kill (threads s) = 0 /\ head s = 0x80 * (floating s + psum f_own (threads s) + psum f_dec (threads s)) + ty) by lia.
    destruct F0 as (F0 & F1 & F2). pose proof (PU f_own (own, IncLoaded (head s))) as U1. pose proof (PU f_dec (own, IncLoaded (head s))) as U2.
    pose proof (PU f_kill (own, IncLoaded (head s))) as U3. cbn [f_own f_dec f_kill fst snd] in U1, U2, U3.
    apply FIN; [unfold th_ok; cbn [fst snd]; lia| |rewrite I1, F0; reflexivity]. cbv zeta. left. lia.
  - (* IncGo *)
    destruct OK as [OK1 OK2]. destruct (N.ltb_spec (max_refcount h) cb) as [L|L]; [lia|]. destruct (N.ltb_spec cb 0x80) as [L2|L2]; [lia|].
    injection E as <-. pose proof (PU f_own (own + 1, Idle)) as U1. pose proof (PU f_dec (own + 1, Idle)) as U2. pose proof (PU f_kill (own + 1, Idle)) as U3.
    cbn [f_own f_dec f_kill fst snd] in U1, U2, U3. cbn [floating threads] in B'.
    assert (F0 : freed s = 0 /\ psum f_kill (threads s) = 0 /\ head s = 0x80 * (floating s + psum f_own (threads s) + psum f_dec (threads s)) + ty) by lia.
    destruct F0 as (F0 & F1 & F2).
    apply FIN; [exact I| |rewrite I1, F0; reflexivity]. cbv zeta. left. rewrite N.mod_small by lia. lia.
  - (* DecLoad *)
    destruct (N.ltb_spec 0 own) as [L|L]; [|discriminate]. injection E as <-.
    pose proof (PU f_own (own - 1, DecLoaded (head s))) as U1. pose proof (PU f_dec (own - 1, DecLoaded (head s))) as U2.
    pose proof (PU f_kill (own - 1, DecLoaded (head s))) as U3. cbn [f_own f_dec f_kill fst snd] in U1, U2, U3.
    assert (F0 : freed s = 0 /\ psum f_kill (threads s) = 0 /\ head s = 0x80 * (floating s + psum f_own (threads s) + psum f_dec (threads s)) + ty) by lia.
    destruct F0 as (F0 & F1 & F2). apply FIN; [unfold th_ok; cbn [fst snd]; lia| |rewrite I1, F0; reflexivity]. cbv zeta. left. lia.
  - (* DecGo *)
    destruct (N.ltb_spec (max_refcount h) cb) as [L|L]; [lia|]. destruct (N.ltb_spec cb 0x80) as [L2|L2]; [lia|]. injection E as <-.
    assert (F0 : freed s = 0 /\ psum f_kill (threads s) = 0 /\ head s = 0x80 * (floating s + psum f_own (threads s) + psum f_dec (threads s)) + ty) by lia.
    destruct F0 as (F0 & F1 & F2).
    assert (HD : (head s + (modulus h - 0x80)) mod modulus h = head s - 0x80).
    { replace (head s + (modulus h - 0x80)) with (head s - 0x80 + 1 * modulus h) by lia. rewrite N.mod_add by lia. apply N.mod_small. lia. }
    rewrite HD. destruct ((0x80 <=? head s) && (head s <? 0x100)) eqn:Z.
    + apply andb_true_iff in Z. destruct Z as [Z1 Z2]. apply N.leb_le in Z1. apply N.ltb_lt in Z2.
      pose proof (PU f_own (own, DecZero (head s))) as U1. pose proof (PU f_dec (own, DecZero (head s))) as U2. pose proof (PU f_kill (own, DecZero (head s))) as U3.
      cbn [f_own f_dec f_kill fst snd] in U1, U2, U3. apply FIN; [unfold th_ok; cbn [fst snd]; lia| |rewrite I1, F0; reflexivity]. cbv zeta. right. lia.
    + apply andb_false_iff in Z.
      assert (Z' : 2 <= floating s + psum f_own (threads s) + psum f_dec (threads s)).
      { destruct Z as [Z|Z]; [apply N.leb_gt in Z|apply N.ltb_ge in Z]; lia. }
      pose proof (PU f_own (own, Idle)) as U1. pose proof (PU f_dec (own, Idle)) as U2. pose proof (PU f_kill (own, Idle)) as U3.
      cbn [f_own f_dec f_kill fst snd] in U1, U2, U3. apply FIN; [exact I| |rewrite I1, F0; reflexivity]. cbv zeta. left. lia.
  - (* DecStore *)
    injection E as <-. pose proof (PU f_own (own, DecStored)) as U1. pose proof (PU f_dec (own, DecStored)) as U2. pose proof (PU f_kill (own, DecStored)) as U3.
    cbn [f_own f_dec f_kill fst snd] in U1, U2, U3. assert (F0 : freed s = 0) by lia.
    apply FIN; [exact I| |rewrite I1, F0; reflexivity]. cbv zeta. right. lia.
  - (* DecRecycle *)
    injection E as <-. pose proof (PU f_own (own, Idle)) as U1. pose proof (PU f_dec (own, Idle)) as U2. pose proof (PU f_kill (own, Idle)) as U3.
    cbn [f_own f_dec f_kill fst snd] in U1, U2, U3. constructor; cbn [touched threads floating freed head]; [assumption|now apply upd_forall|].
    cbv zeta. right. lia.
  - (* Give *)
    destruct (N.ltb_spec 0 own) as [L|L]; [|discriminate]. injection E as <-. pose proof (PU f_own (own - 1, Idle)) as U1.
    pose proof (PU f_dec (own - 1, Idle)) as U2. pose proof (PU f_kill (own - 1, Idle)) as U3. cbn [f_own f_dec f_kill fst snd] in U1, U2, U3.
    apply FIN; [exact I| |exact I1]. cbv zeta. lia.
  - (* Take *)
    destruct (N.ltb_spec 0 (floating s)) as [L|L]; [|discriminate]. injection E as <-. pose proof (PU f_own (own + 1, Idle)) as U1.
    pose proof (PU f_dec (own + 1, Idle)) as U2. pose proof (PU f_kill (own + 1, Idle)) as U3. cbn [f_own f_dec f_kill fst snd] in U1, U2, U3.
    apply FIN; [exact I| |exact I1]. cbv zeta. lia.
Qed.

Lemma fresh_inv h ty n most : room h ty most -> 1 <= most -> inv h ty (fresh ty n).
Proof.
  intros R M. constructor; unfold fresh; cbn [head freed touched floating threads psum fold_right]; [reflexivity| |].
  - constructor; [exact I|]. apply Forall_forall. intros t Ht. apply repeat_spec in Ht. subst t. exact I.
  - assert (Z : forall f : N * pc -> N, f (0, Idle) = 0 -> psum f (repeat (0, Idle) n) = 0).
    { intros f Hf. induction n as [|n IH]; [reflexivity|]. simpl. rewrite IH, Hf. reflexivity. }
    cbv zeta. change (fold_right (fun t a => f_own t + a) 0) with (psum f_own). change (fold_right (fun t a => f_dec t + a) 0) with (psum f_dec). change (fold_right (fun t a => f_kill t + a) 0) with (psum f_kill).
    rewrite !Z by reflexivity. left. cbn [f_kill f_own f_dec fst snd]. lia.
Qed.
Lemma fresh_refs ty n : refs_of (fresh ty n) = 1.
Proof. unfold refs_of, fresh; simpl. assert (Z : fold_right (fun t a => fst t + (match snd t with DecLoaded _ => 1 | _ => 0 end) + a) 0 (repeat (0, Idle) n) = 0) by (induction n as [|n IH]; [reflexivity|simpl in *; lia]). rewrite Z. reflexivity. Qed.
Lemma reach_bound h most s s' : reach h most s s' -> refs_of s <= most -> refs_of s' <= most.
Proof. intros R B. destruct R; assumption. Qed.
Lemma reach_inv h ty most s s' : room h ty most -> reach h most s s' -> refs_of s <= most -> inv h ty s -> inv h ty s'.
Proof.
  intros R H B I. induction H as [s|s s1 s2 i a H IH E B2]; [exact I|].
  exact (exec_inv h ty most s1 i a s2 R (IH B I) (reach_bound _ _ _ _ H B) E B2).
Qed.

Lemma reach_inv_fresh h ty n most s : room h ty most -> 1 <= most -> reach h most (fresh ty n) s -> inv h ty s.
Proof. intros R B H. apply (reach_inv h ty most (fresh ty n)); try assumption; [rewrite fresh_refs; exact B|exact (fresh_inv h ty n most R B)]. Qed.
(** C41: whatever the interleaving of increments, decrements and hand-overs, an object is
    recycled at most once, never while somebody holds a reference, its header is never used
    afterwards, no exception is raised; and when nobody holds a reference and every call has
    returned, it has been recycled. *)
Theorem C41_threads_partial : forall h ty n most s,
  room h ty most -> 1 <= most -> reach h most (fresh ty n) s ->
  freed s <= 1 /\
  (freed s = 1 -> floating s = 0 /\ Forall (fun t => fst t = 0) (threads s)) /\
  touched s = false /\ nobody_raised s /\
  (all_idle s -> refs_of s = 0 -> freed s = 1).
Proof.
  intros h ty n most s R B H. destruct (reach_inv_fresh _ _ _ _ _ R B H) as [I1 I2 I3]. cbv zeta in I3.
  split; [lia|]. split.
  { intros F. split; [lia|]. apply Forall_forall. intros t Ht. apply (psum_zero f_own (threads s)); [lia|exact Ht]. }
  split; [exact I1|]. split.
  { unfold nobody_raised. eapply Forall_impl; [|exact I2]. intros [o p] Hp Hr; cbn [snd] in Hr; rewrite Hr in Hp; exact Hp. }
  intros A Z. rewrite refs_of_eq in Z. assert (K : psum f_kill (threads s) = 0).
  { clear - A. unfold all_idle in A. induction A as [|[o p] l Hp Hl IH]; [reflexivity|]. simpl in Hp. subst p. simpl. exact IH. }
  lia.
Qed.

(** The two header formats have room for this many references. *)
Theorem C41_room : forall ty, ty < 0x80 -> room long_hdr ty (2^45 - 2) /\ room int_hdr ty (2^25 - 2).
Proof. intros ty H. unfold room, long_hdr, int_hdr; cbn [modulus max_refcount].
  change (2^45 - 2) with 35184372088830. change (2^25 - 2) with 33554430. change (2^64) with 18446744073709551616. change (2^32) with 4294967296. lia. Qed.

(** A static object (count 0) is never changed nor recycled. *)
Definition static (ty : N) (refs : list N) : shared :=
  {| head := ty; freed := 0; touched := false; floating := 0; threads := map (fun n => (n, Idle)) refs |}.
Theorem C41_static : forall h ty refs most s, ty < 0x80 -> 0x80 <= max_refcount h -> reach h most (static ty refs) s ->
  head s = ty /\ freed s = 0 /\ touched s = false /\ nobody_raised s.
Proof.
  intros h ty refs most s T M H.
  assert (G : head s = ty /\ freed s = 0 /\ touched s = false /\
     Forall (fun t => match snd t with Idle => True | IncLoaded cb | DecLoaded cb => cb = ty | _ => False end) (threads s)).
  { remember (static ty refs) as s0. induction H as [s|s s1 s2 i a H IH E B2]; subst.
    - simpl. repeat split. apply Forall_forall. intros t Ht. apply in_map_iff in Ht. destruct Ht as (x & <- & _). exact I.
    - destruct (IH eq_refl) as (G1 & G2 & G3 & G4). clear IH. unfold exec in E.
      destruct (nth_error (threads s1) i) as [[own p]|] eqn:Ht; [|discriminate].
      assert (OK := proj1 (Forall_forall _ _) G4 _ (nth_error_In _ _ Ht)). cbn [snd] in OK.
      rewrite G2, G3, G1 in E. cbn [orb] in E.
      destruct a; destruct p as [|cb|cb|old| |]; try discriminate; try contradiction; subst;
        repeat match type of E with context [if ?b then _ else _] => destruct b eqn:?; try discriminate end;
        try (apply N.ltb_lt in Heqb; lia); try (apply N.ltb_ge in Heqb0; lia);
        injection E as <-; simpl; repeat split; auto; apply upd_forall; simpl; auto. }
  destruct G as (G1 & G2 & G3 & G4). repeat split; auto. unfold nobody_raised. eapply Forall_impl; [|exact G4].
  intros [o p] Hp Hr; cbn [snd] in Hr; rewrite Hr in Hp; exact Hp.
Qed.

(** False without the bound: the check against the maximum and the addition are separate
    operations.  With 32-bit headers and 2^25 - 2 references, three threads pass the check
    together, the count wraps around to 1, and the next decref frees the object while
    33 million references are held. *)
Lemma pile h ty most : room h ty most -> 1 <= most -> forall k, k + 1 <= most ->
  reach h (most + 3) (fresh ty 2) {| head := 0x80 * (k + 1) + ty; freed := 0; touched := false; floating := 0; threads := [(k + 1, Idle); (0, Idle); (0, Idle)] |}.
Proof.
  intros (R1 & R2 & R3) M. induction k as [|k IH] using N.peano_ind; intros K.
  { apply reach_refl. }
  eapply (reach_step _ _ _ _ _ 0%nat IncGo); [eapply (reach_step _ _ _ _ _ 0%nat IncLoad); [apply IH; lia| |]| |].
  - unfold exec; cbn [threads nth_error].
    replace (0 <? k + 1) with true by (symmetry; apply N.ltb_lt; lia). reflexivity.
  - unfold refs_of; simpl; lia.
  - unfold exec; cbn [threads nth_error upd head freed touched floating orb].
    replace (max_refcount h <? 0x80 * (k + 1) + ty) with false by (symmetry; apply N.ltb_ge; lia).
    replace (0x80 * (k + 1) + ty <? 0x80) with false by (symmetry; apply N.ltb_ge; lia).
    rewrite N.mod_small by lia. replace (0x80 * (k + 1) + ty + 0x80) with (0x80 * (N.succ k + 1) + ty) by lia. replace (k + 1 + 1) with (N.succ k + 1) by lia. reflexivity.
  - unfold refs_of; simpl; lia.
Qed.
Fixpoint run_all (h : hdr) (s : shared) (l : list (nat * action)) : option shared :=
  match l with [] => Some s | (i, a) :: r => match exec h s i a with Some s' => run_all h s' r | None => None end end.
Fixpoint bounds (h : hdr) (most : N) (s : shared) (l : list (nat * action)) : bool :=
  match l with [] => true | (i, a) :: r => match exec h s i a with Some s' => (refs_of s' <=? most) && bounds h most s' r | None => false end end.
Lemma run_reach h most s0 : forall l s s', reach h most s0 s -> run_all h s l = Some s' -> bounds h most s l = true -> reach h most s0 s'.
Proof.
  induction l as [|[i a] l IH]; intros s s' R E B; simpl in *; [injection E as <-; exact R|].
  destruct (exec h s i a) as [s1|] eqn:X; [|discriminate]. apply andb_true_iff in B. destruct B as [B1 B2]. apply N.leb_le in B1.
  exact (IH s1 s' (reach_step _ _ _ _ _ _ _ R X B1) E B2).
Qed.
Theorem C41_wrap_refuted : exists s, reach int_hdr (2^25 + 1) (fresh 5 2) s /\ freed s = 1 /\ refs_of s = 2^25.
Proof.
  destruct (C41_room 5 eq_refl) as [_ R].
  pose proof (pile int_hdr 5 (2^25 - 2) R ltac:(discriminate) (2^25 - 3) ltac:(discriminate)) as P.
  replace (2^25 - 2 + 3) with (2^25 + 1) in P by reflexivity.
  pose (acts := [(0, Give); (0, Give); (1, Take); (2, Take); (0, IncLoad); (1, IncLoad); (2, IncLoad); (0, IncGo); (1, IncGo); (2, IncGo);
                 (0, DecLoad); (0, DecGo); (0, DecStore); (0, DecRecycle)]%nat).
  destruct (run_all int_hdr {| head := 0x80 * (2^25 - 3 + 1) + 5; freed := 0; touched := false; floating := 0; threads := [(2^25 - 3 + 1, Idle); (0, Idle); (0, Idle)] |} acts) as [s|] eqn:E; [|vm_compute in E; discriminate].
  exists s. split; [apply (run_reach _ _ _ acts _ _ P E); vm_compute; reflexivity|].
  vm_compute in E. injection E as <-. split; reflexivity.
Qed.
(** Two threads share one object: one copies its reference while the other gives its own
    back; both finish, the object is recycled. *)
Example C41_threads_case : exists s, reach long_hdr (2^45 - 2) (fresh 9 1) s /\ all_idle s /\ refs_of s = 0 /\ freed s = 1.
Proof.
  pose (acts := [(0, IncLoad); (0, IncGo); (0, Give); (1, Take); (0, DecLoad); (1, IncLoad); (0, DecGo); (1, IncGo); (1, DecLoad); (1, DecGo); (1, DecLoad); (1, DecGo); (1, DecStore); (1, DecRecycle)]%nat).
  destruct (run_all long_hdr (fresh 9 1) acts) as [s|] eqn:E; [|vm_compute in E; discriminate].
  exists s. split; [apply (run_reach _ _ _ acts _ _ (reach_refl _ _ _) E); vm_compute; reflexivity|].
  vm_compute in E. injection E as <-. repeat constructor.
Qed.

(** ** Heaps: specification *)
Definition occ (i : nat) (l : list (option nat)) : N :=
  fold_right (fun x a => (match x with Some j => if Nat.eqb i j then 1 else 0 | None => 0 end) + a) 0 l.
(** References to object i held by live objects. *)
Definition inrefs (m : heap) (i : nat) : N :=
  fold_right (fun o a => (match stat o with Live => occ i (elts o) | _ => 0 end) + a) 0 m.
(** Counts are right: every live object which is not static (count 0) is counted exactly as
    often as it is referred to, by live objects and by the holders outside ([roots]: how many
    references to each object); a freed object is referred to by nobody. *)
Record counted (m : heap) (roots : nat -> N) : Prop := {
  c_live : forall i o, nth_error m i = Some o -> stat o = Live -> 0 < count o -> count o = roots i + inrefs m i;
  c_dead : forall i o, nth_error m i = Some o -> stat o <> Live -> roots i + inrefs m i = 0;
  c_exists : forall i, 0 < roots i + inrefs m i -> nth_error m i <> None;
  c_pairs : forall i o, nth_error m i = Some o -> is_pair o = true -> exists a d, elts o = [a; d] }.
Definition quiet (m : heap) : Prop := forall i o, nth_error m i = Some o -> stat o <> Dying.
Definition plus (P : nat -> N) (l : list (option nat)) (i : nat) : N := P i + occ i l.

(** ** Proof *)
Lemma hset_len : forall m i o, length (hset m i o) = length m.
Proof. induction m as [|x m IH]; intros [|i] o; simpl; auto. Qed.
Lemma hset_same : forall m i o o', nth_error m i = Some o -> nth_error (hset m i o') i = Some o'.
Proof. induction m as [|x m IH]; intros [|i] o o' H; try discriminate; simpl in *; eauto. Qed.
Lemma hset_other : forall m i j o, i <> j -> nth_error (hset m i o) j = nth_error m j.
Proof. induction m as [|x m IH]; intros [|i] [|j] o H; simpl; auto; try congruence. Qed.
Definition contrib (i : nat) (o : obj) : N := match stat o with Live => occ i (elts o) | _ => 0 end.
Lemma inrefs_hset : forall m j o o' i, nth_error m j = Some o -> inrefs (hset m j o') i + contrib i o = inrefs m i + contrib i o'.
Proof.
  induction m as [|x m IH]; intros [|j] o o' i H; try discriminate; simpl in *.
  - injection H as ->. unfold contrib. lia.
  - specialize (IH j o o' i H). lia.
Qed.
Definition w (o : obj) : nat := match stat o with Live => (length (elts o) + 3)%nat | _ => O end.
Definition W (m : heap) : nat := fold_right (fun o a => (w o + a)%nat) O m.
Lemma W_hset : forall m j o o', nth_error m j = Some o -> (W (hset m j o') + w o = W m + w o')%nat.
Proof.
  induction m as [|x m IH]; intros [|j] o o' H; try discriminate; simpl in *.
  - injection H as ->. lia.
  - specialize (IH j o o' H). lia.
Qed.
Lemma occ_app i l1 l2 : occ i (l1 ++ l2) = occ i l1 + occ i l2.
Proof. induction l1 as [|x l IH]; simpl; [reflexivity|]. rewrite IH. lia. Qed.
Lemma counted_ext m P Q : (forall i, P i = Q i) -> counted m P -> counted m Q.
Proof.
  intros E [A B C D]. constructor; intros; rewrite <- ?E; eauto.
  apply C. now rewrite E.
Qed.

Definition keeps (m m' : heap) : Prop :=
  (W m' <= W m)%nat /\
  forall i o, nth_error m i = Some o ->
    exists o', nth_error m' i = Some o' /\ is_pair o' = is_pair o /\ elts o' = elts o /\
      (stat o <> Live -> o' = o) /\ (stat o = Live -> stat o' <> Dying) /\ (count o = 0 -> o' = o) /\ (stat o' = Live -> 0 < count o -> 0 < count o').
Lemma keeps_refl m : keeps m m.
Proof. split; [lia|]. intros i o H. exists o. repeat split; auto; congruence. Qed.
Lemma keeps_trans m1 m2 m3 : keeps m1 m2 -> keeps m2 m3 -> keeps m1 m3.
Proof.
  intros [A1 A2] [B1 B2]. split; [lia|]. intros i o H. destruct (A2 i o H) as (o2 & H2 & P1 & P2 & P3 & P4 & P5 & P6).
  destruct (B2 i o2 H2) as (o3 & H3 & Q1 & Q2 & Q3 & Q4 & Q5 & Q6). exists o3. repeat split; try congruence.
  - intros S. rewrite (P3 S) in *. auto.
  - intros S. specialize (P4 S). destruct (stat o2) eqn:S2; [auto|congruence|]. rewrite Q3 by discriminate. rewrite S2. discriminate.
  - intros S. rewrite (P5 S) in *. auto.
  - intros S C. destruct (stat o2) eqn:S2; [auto| |]; rewrite (Q3 ltac:(discriminate)) in S; congruence.
Qed.

Lemma kill m i o P : nth_error m i = Some o -> stat o = Live -> count o = 1 -> counted m (plus P [Some i]) ->
  let m1 := hset m i (set_stat (set_count o 0) Dying) in
  counted m1 (plus P (elts o)) /\ (W m1 + length (elts o) + 3 = W m)%nat.
Proof.
  intros H L C [A B D E] m1.
  assert (IR : forall k, inrefs m1 k + occ k (elts o) = inrefs m k).
  { intros k. pose proof (inrefs_hset m i o (set_stat (set_count o 0) Dying) k H) as X. unfold contrib in X. rewrite L in X. simpl in X. unfold m1. lia. }
  assert (Pi : forall k, k <> i -> plus P [Some i] k = P k).
  { intros k N. unfold plus, occ; simpl. apply Nat.eqb_neq in N. rewrite N. lia. }
  assert (Z : P i + inrefs m i = 0).
  { pose proof (A i o H L ltac:(lia)) as X. unfold plus, occ in X; simpl in X. rewrite Nat.eqb_refl in X. lia. }
  split.
  - constructor.
    + intros k ok Hk Lk Ck. destruct (Nat.eq_dec k i) as [->|N].
      { unfold m1 in Hk. rewrite (hset_same m i o) in Hk by assumption. injection Hk as <-. discriminate. }
      unfold m1 in Hk. rewrite hset_other in Hk by congruence. rewrite (A k ok Hk Lk Ck), Pi by assumption. unfold plus. pose proof (IR k). lia.
    + intros k ok Hk Lk. unfold plus. pose proof (IR k) as X. destruct (Nat.eq_dec k i) as [->|N]; [lia|].
      unfold m1 in Hk. rewrite hset_other in Hk by congruence. pose proof (B k ok Hk Lk) as Y. rewrite Pi in Y by assumption. lia.
    + intros k Hk. unfold plus in Hk. pose proof (IR k) as X. destruct (Nat.eq_dec k i) as [->|N]; [lia|].
      unfold m1. rewrite hset_other by congruence. apply D. rewrite Pi by assumption. lia.
    + intros k ok Hk Pk. destruct (Nat.eq_dec k i) as [->|N].
      { unfold m1 in Hk. rewrite (hset_same m i o) in Hk by assumption. injection Hk as <-. exact (E i o H Pk). }
      unfold m1 in Hk. rewrite hset_other in Hk by congruence. eauto.
  - pose proof (W_hset m i o (set_stat (set_count o 0) Dying) H) as X. unfold w in X. rewrite L in X. simpl in X. unfold m1. lia.
Qed.

Lemma kill_release m i o m2 : nth_error m i = Some o -> stat o = Live -> 0 < count o ->
  keeps (hset m i (set_stat (set_count o 0) Dying)) m2 ->
  exists m3, release m2 i = Some m3 /\ (forall P, counted m2 P -> counted m3 P) /\ keeps m m3 /\ W m3 = W m2.
Proof.
  intros H L C [K1 K2]. pose (d := set_stat (set_count o 0) Dying).
  destruct (K2 i d (hset_same m i o d H)) as (o2 & H2 & _ & _ & Q & _). rewrite Q in H2 by discriminate. clear Q o2.
  exists (hset m2 i (set_stat d Freed)). unfold release. rewrite H2. change (stat d) with Dying. cbv iota.
  assert (WE : W (hset m2 i (set_stat d Freed)) = W m2).
  { pose proof (W_hset m2 i d (set_stat d Freed) H2) as X. unfold w in X. simpl in X. lia. }
  assert (WM : (W (hset m i d) <= W m)%nat).
  { pose proof (W_hset m i o d H) as X. unfold w in X. rewrite L in X. simpl in X. lia. }
  split; [reflexivity|]. split; [|split; [|exact WE]].
  - intros P [A B D E].
    assert (IR : forall k, inrefs (hset m2 i (set_stat d Freed)) k = inrefs m2 k).
    { intros k. pose proof (inrefs_hset m2 i d (set_stat d Freed) k H2) as X. unfold contrib in X. simpl in X. lia. }
    constructor.
    + intros k ok Hk. rewrite IR. destruct (Nat.eq_dec k i) as [->|N].
      { rewrite (hset_same m2 i d) in Hk by assumption. injection Hk as <-. discriminate. }
      rewrite hset_other in Hk by congruence. eauto.
    + intros k ok Hk Lk. rewrite IR. destruct (Nat.eq_dec k i) as [->|N].
      { apply (B i d H2). discriminate. }
      rewrite hset_other in Hk by congruence. eauto.
    + intros k Hk. rewrite IR in Hk. destruct (Nat.eq_dec k i) as [->|N].
      { rewrite (hset_same m2 i d) by assumption. discriminate. }
      rewrite hset_other by congruence. auto.
    + intros k ok Hk Pk. destruct (Nat.eq_dec k i) as [->|N].
      { rewrite (hset_same m2 i d) in Hk by assumption. injection Hk as <-. exact (E i d H2 Pk). }
      rewrite hset_other in Hk by congruence. eauto.
  - split; [fold d in K1; lia|]. intros k ok Hk. destruct (Nat.eq_dec k i) as [->|N].
    + rewrite H in Hk. injection Hk as <-. exists (set_stat d Freed). rewrite (hset_same m2 i d) by assumption.
      repeat split; simpl; try congruence; lia.
    + rewrite hset_other by congruence. apply K2. rewrite hset_other by congruence. exact Hk.
Qed.

(** What the three functions do, at some depth of the recursion. *)
Definition decref_ok (fuel : nat) : Prop := forall m x P, (W m < fuel)%nat -> counted m (plus P [x]) ->
  exists m', decref fuel m x = Some m' /\ counted m' P /\ keeps m m'.
Definition cdr_ok (fuel : nat) : Prop := forall m x P, (W m < fuel)%nat -> counted m (plus P [x]) -> pairp m x = Some true ->
  exists m', cdr_loop fuel m x = Some m' /\ counted m' P /\ keeps m m'.
Definition all_ok (fuel : nat) : Prop := forall l m P, (W m + length l < fuel)%nat -> counted m (plus P l) ->
  exists m', decref_all fuel m l = Some m' /\ counted m' P /\ keeps m m'.

Lemma pointee m P x i : counted m (plus P [x]) -> x = Some i -> exists o, nth_error m i = Some o /\ stat o = Live.
Proof.
  intros [A B D E] ->. destruct (nth_error m i) as [o|] eqn:H.
  - exists o. split; [reflexivity|]. destruct (stat o) eqn:S; [reflexivity| |];
      assert (X := B i o H ltac:(congruence)); unfold plus, occ in X; simpl in X; rewrite Nat.eqb_refl in X; lia.
  - exfalso. apply (D i); [|exact H]. unfold plus, occ; simpl. rewrite Nat.eqb_refl. lia.
Qed.
Lemma drop_static m i o P : nth_error m i = Some o -> count o = 0 -> stat o = Live -> counted m (plus P [Some i]) -> counted m P.
Proof.
  intros H C L [A B D E]. assert (Pi : forall k, P k <= plus P [Some i] k) by (intros k; unfold plus; lia).
  assert (Pk : forall k, k <> i -> plus P [Some i] k = P k).
  { intros k N. unfold plus, occ; simpl. apply Nat.eqb_neq in N. rewrite N. lia. }
  constructor.
  - intros k ok Hk Lk Ck. destruct (Nat.eq_dec k i) as [->|N]; [replace ok with o in Ck by congruence; lia|]. rewrite <- (Pk k N). eauto.
  - intros k ok Hk Lk. pose proof (B k ok Hk Lk). specialize (Pi k). lia.
  - intros k Hk. apply D. specialize (Pi k). lia.
  - exact E.
Qed.
Lemma drop_one m i o P : nth_error m i = Some o -> 1 < count o -> stat o = Live -> counted m (plus P [Some i]) ->
  counted (hset m i (set_count o (count o - 1))) P /\ keeps m (hset m i (set_count o (count o - 1))).
Proof.
  intros H C L [A B D E]. set (o' := set_count o (count o - 1)).
  assert (IR : forall k, inrefs (hset m i o') k = inrefs m k).
  { intros k. pose proof (inrefs_hset m i o o' k H) as X. unfold contrib, o' in X. simpl in X. unfold o'. lia. }
  assert (Pi : forall k, plus P [Some i] k = P k + if Nat.eqb k i then 1 else 0).
  { intros k. unfold plus, occ; simpl. destruct (Nat.eqb k i); lia. }
  split; [constructor|split].
  - intros k ok Hk Lk Ck. rewrite IR. destruct (Nat.eq_dec k i) as [->|N].
    + rewrite (hset_same m i o) in Hk by assumption. injection Hk as <-. pose proof (A i o H L ltac:(lia)) as X. rewrite Pi, Nat.eqb_refl in X. simpl. lia.
    + rewrite hset_other in Hk by congruence. pose proof (A k ok Hk Lk Ck) as X. rewrite Pi in X. apply Nat.eqb_neq in N. rewrite N in X. lia.
  - intros k ok Hk Lk. rewrite IR. destruct (Nat.eq_dec k i) as [->|N].
    + rewrite (hset_same m i o) in Hk by assumption. injection Hk as <-. exfalso. apply Lk. exact L.
    + rewrite hset_other in Hk by congruence. pose proof (B k ok Hk Lk) as X. rewrite Pi in X. lia.
  - intros k Hk. rewrite IR in Hk. destruct (Nat.eq_dec k i) as [->|N].
    + rewrite (hset_same m i o) by assumption. discriminate.
    + rewrite hset_other by congruence. apply D. rewrite Pi. lia.
  - intros k ok Hk Pk. destruct (Nat.eq_dec k i) as [->|N].
    + rewrite (hset_same m i o) in Hk by assumption. injection Hk as <-. exact (E i o H Pk).
    + rewrite hset_other in Hk by congruence. eauto.
  - pose proof (W_hset m i o o' H) as X. assert (w o' = w o) by reflexivity. lia.
  - intros k ok Hk. destruct (Nat.eq_dec k i) as [->|N].
    + rewrite H in Hk. injection Hk as <-. exists o'. rewrite (hset_same m i o) by assumption. unfold o'. repeat split; simpl; try congruence; try lia.
    + rewrite hset_other by congruence. exists ok. repeat split; auto; congruence.
Qed.

Lemma pair_body fuel m i o P a d : decref_ok fuel -> cdr_ok fuel -> (W m < S fuel)%nat ->
  nth_error m i = Some o -> stat o = Live -> count o = 1 -> elts o = [a; d] -> counted m (plus P [Some i]) ->
  exists m', (let m1 := hset m i (set_stat (set_count o 0) Dying) in
              run m2 <- decref fuel m1 a;
              run p <- pairp m2 d;
              if (p : bool) then run m3 <- release m2 i; cdr_loop fuel m3 d
              else run m3 <- decref fuel m2 d; release m3 i) = Some m' /\ counted m' P /\ keeps m m'.
Proof.
  intros ID IC F H L C E K. destruct (kill m i o P H L C K) as [K1 W1]. rewrite E in K1, W1. simpl length in W1.
  cbv zeta. set (m1 := hset m i (set_stat (set_count o 0) Dying)) in *.
  assert (K1' : counted m1 (plus (plus P [d]) [a])).
  { eapply counted_ext; [|exact K1]. intros k. unfold plus, occ; simpl. lia. }
  destruct (ID m1 a (plus P [d]) ltac:(lia) K1') as (m2 & -> & K2 & S2).
  assert (W2 : (W m2 <= W m1)%nat) by apply S2.
  assert (PP : exists b, pairp m2 d = Some b).
  { destruct d as [j|]; [|now exists false]. destruct (pointee _ _ _ j K2 eq_refl) as (oj & Hj & Lj). simpl. rewrite Hj, Lj. eauto. }
  destruct PP as [b PP]. rewrite PP. destruct b.
  - destruct (kill_release m i o m2 H L ltac:(lia) S2) as (m3 & -> & R1 & R2 & R3).
    assert (PP3 : pairp m3 d = Some true).
    { destruct d as [j|]; [|discriminate]. destruct (pointee _ _ _ j (R1 _ K2) eq_refl) as (oj & Hj & Lj).
      simpl in PP |- *. rewrite Hj, Lj. destruct (pointee _ _ _ j K2 eq_refl) as (oj2 & Hj2 & Lj2). rewrite Hj2, Lj2 in PP.
      destruct S2 as [_ S2]. destruct R2 as [_ R2].
      destruct (Nat.eq_dec j i) as [->|N].
      { destruct (S2 i _ (hset_same m i o _ H)) as (x & X1 & _ & _ & X2 & _). rewrite X2 in X1 by discriminate. rewrite Hj2 in X1. injection X1 as ->. discriminate. }
      destruct (nth_error m j) as [oj0|] eqn:Hj0.
      - destruct (R2 j oj0 Hj0) as (x & X1 & X2 & _). destruct (S2 j oj0) as (y & Y1 & Y2 & _).
        { unfold m1. rewrite hset_other by congruence. exact Hj0. }
        congruence.
      - exfalso. destruct K as [_ _ D _]. apply (D j); [|exact Hj0].
        destruct K1 as [_ _ D1 _]. pose proof (D1 j) as X. unfold m1 in X. rewrite hset_other in X by congruence.
        exfalso. apply X; [|exact Hj0]. unfold plus, occ; simpl. rewrite Nat.eqb_refl. destruct a as [a|]; [destruct (Nat.eqb j a)|]; lia. }
    destruct (IC m3 d P ltac:(lia) (R1 _ K2) PP3) as (m4 & -> & K4 & S4).
    exists m4. split; [reflexivity|]. split; [exact K4|]. eapply keeps_trans; eassumption.
  - destruct (ID m2 d P ltac:(lia) K2) as (m3 & -> & K3 & S3).
    destruct (kill_release m i o m3 H L ltac:(lia) (keeps_trans _ _ _ S2 S3)) as (m4 & -> & R1 & R2 & R3).
    exists m4. split; [reflexivity|]. split; [exact (R1 _ K3)|exact R2].
Qed.

Lemma refs_ok : forall fuel, decref_ok fuel /\ cdr_ok fuel /\ all_ok fuel.
Proof.
  induction fuel as [|fuel (ID & IC & IA)].
  { split; [|split]; intros ? ? ? F; lia. }
  split; [|split].
  - intros m x P F K. destruct x as [i|]; cbn [decref].
    2:{ exists m. split; [reflexivity|]. split; [|apply keeps_refl]. eapply counted_ext; [|exact K]. intros k. unfold plus, occ; simpl. lia. }
    destruct (pointee _ _ _ i K eq_refl) as (o & H & L). rewrite H, L.
    destruct (N.eqb_spec (count o) 0) as [C0|C0].
    { exists m. split; [reflexivity|]. split; [now apply (drop_static m i o)|apply keeps_refl]. }
    destruct (N.ltb_spec 1 (count o)) as [C1|C1].
    { destruct (drop_one m i o P H C1 L K) as [K1 S1]. eauto. }
    assert (C : count o = 1) by lia. destruct (is_pair o) eqn:Pr.
    + destruct (c_pairs _ _ K i o H Pr) as (a & d & E). rewrite E. exact (pair_body fuel m i o P a d ID IC F H L C E K).
    + destruct (kill m i o P H L C K) as [K1 W1].
      destruct (IA (elts o) (hset m i (set_stat (set_count o 0) Dying)) P ltac:(lia) K1) as (m2 & -> & K2 & S2).
      destruct (kill_release m i o m2 H L ltac:(lia) S2) as (m3 & -> & R1 & R2 & R3). eauto.
  - intros m x P F K PP. destruct x as [i|]; [|discriminate]. cbn [cdr_loop].
    destruct (pointee _ _ _ i K eq_refl) as (o & H & L). rewrite H, L. simpl in PP. rewrite H, L in PP. injection PP as Pr.
    destruct (N.eqb_spec (count o) 0) as [C0|C0].
    { exists m. split; [reflexivity|]. split; [now apply (drop_static m i o)|apply keeps_refl]. }
    destruct (c_pairs _ _ K i o H Pr) as (a & d & E). rewrite E.
    destruct (N.ltb_spec 1 (count o)) as [C1|C1].
    { destruct (drop_one m i o P H C1 L K) as [K1 S1]. eauto. }
    assert (C : count o = 1) by lia. exact (pair_body fuel m i o P a d ID IC F H L C E K).
  - intros l m P F K. destruct l as [|x l]; cbn [decref_all].
    + exists m. split; [reflexivity|]. split; [|apply keeps_refl]. eapply counted_ext; [|exact K]. intros k. unfold plus, occ; simpl. lia.
    + simpl length in F. assert (K' : counted m (plus (plus P l) [x])).
      { eapply counted_ext; [|exact K]. intros k. unfold plus, occ; simpl. lia. }
      destruct (ID m x (plus P l) ltac:(lia) K') as (m1 & -> & K1 & S1). assert (W1 : (W m1 <= W m)%nat) by apply S1.
      destruct (IA l m1 P ltac:(lia) K1) as (m2 & -> & K2 & S2). exists m2. split; [reflexivity|]. split; [exact K2|]. eapply keeps_trans; eassumption.
Qed.

Lemma refs_len : forall fuel, (forall m x m', decref fuel m x = Some m' -> length m' = length m) /\
            (forall m x m', cdr_loop fuel m x = Some m' -> length m' = length m) /\ (forall l m m', decref_all fuel m l = Some m' -> length m' = length m).
Proof.
          assert (RL : forall m i m', release m i = Some m' -> length m' = length m).
          { intros m i m'. unfold release. destruct (nth_error m i) as [o|]; [|discriminate]. destruct (stat o); try discriminate. intros [= <-]. apply hset_len. }
          induction fuel as [|fuel (ID & IC & IA)]; [repeat split; discriminate|].
          assert (PB : forall m i o a d m', (run m2 <- decref fuel (hset m i o) a; run p <- pairp m2 d;
              if (p : bool) then run m3 <- release m2 i; cdr_loop fuel m3 d else run m3 <- decref fuel m2 d; release m3 i) = Some m' -> length m' = length m).
          { intros m i o a d m' X. destruct (decref fuel (hset m i o) a) as [m2|] eqn:E2; [|discriminate]. apply ID in E2. rewrite hset_len in E2.
            destruct (pairp m2 d) as [[|]|]; [| |discriminate].
            - destruct (release m2 i) as [m3|] eqn:E3; [|discriminate]. apply RL in E3. apply IC in X. congruence.
            - destruct (decref fuel m2 d) as [m3|] eqn:E3; [|discriminate]. apply ID in E3. apply RL in X. congruence. }
          split; [|split].
          - intros m x m' X. destruct x as [i|]; cbn [decref] in X; [|now injection X as <-].
            destruct (nth_error m i) as [o|]; [|discriminate]. destruct (stat o); try discriminate.
            destruct (count o =? 0); [now injection X as <-|]. destruct (1 <? count o); [injection X as <-; apply hset_len|].
            destruct (is_pair o).
            + destruct (elts o) as [|a [|d [|]]]; try discriminate. exact (PB _ _ _ _ _ _ X).
            + destruct (decref_all fuel _ (elts o)) as [m2|] eqn:E2; [|discriminate]. apply IA in E2. rewrite hset_len in E2. apply RL in X. congruence.
          - intros m x m' X. destruct x as [i|]; cbn [cdr_loop] in X; [|discriminate].
            destruct (nth_error m i) as [o|]; [|discriminate]. destruct (stat o); try discriminate.
            destruct (count o =? 0); [now injection X as <-|]. destruct (elts o) as [|a [|d [|]]]; try discriminate.
            destruct (1 <? count o); [injection X as <-; apply hset_len|]. exact (PB _ _ _ _ _ _ X).
          - intros l m m' X. destruct l as [|x l]; cbn [decref_all] in X; [now injection X as <-|].
            destruct (decref fuel m x) as [m1|] eqn:E1; [|discriminate]. apply ID in E1. apply IA in X. congruence. 
Qed.

(** C41: giving back one reference keeps all counts right, frees an object only when nobody refers
    to it any more, frees none twice (the model's [release] would fail), touches no freed
    object (it would fail as well), and does not change what the surviving objects contain. *)
Theorem C41_heap_partial : forall m roots x fuel,
  counted m (plus roots [x]) -> quiet m -> (W m < fuel)%nat ->
  exists m', decref fuel m x = Some m' /\ counted m' roots /\ quiet m' /\
    forall i o, nth_error m i = Some o -> exists o', nth_error m' i = Some o' /\ elts o' = elts o /\
      (stat o = Freed -> o' = o) /\ (count o = 0 -> o' = o) /\ (stat o' = Live -> 0 < count o -> 0 < count o').
Proof.
  intros m roots x fuel K Q F. destruct (proj1 (refs_ok fuel) m x roots F K) as (m' & E & K' & W' & S).
  exists m'. split; [exact E|]. split; [exact K'|]. split.
  - intros i o' H' D. destruct (nth_error m i) as [o|] eqn:H.
    + destruct (S i o H) as (o2 & H2 & _ & _ & S1 & S2 & _). rewrite H' in H2. injection H2 as <-.
      destruct (stat o) eqn:X; [now apply S2|now apply (Q i o H)|]. rewrite S1 in D by discriminate. congruence.
    + pose proof (proj1 (refs_len fuel) m x m' E) as L.
      apply nth_error_None in H. assert (nth_error m' i <> None) as X by congruence. apply nth_error_Some in X. lia.
  - intros i o H. destruct (S i o H) as (o' & H' & _ & P2 & P3 & _ & P5 & P6). exists o'. repeat split; auto.
    intros X. apply P3. congruence.
Qed.

(** What is reachable: from the holders outside, and from static objects. *)
Inductive reachable (m : heap) (roots : nat -> N) : nat -> Prop :=
| r_root i : 0 < roots i -> reachable m roots i
| r_static i o : nth_error m i = Some o -> stat o = Live -> count o = 0 -> reachable m roots i
| r_elt i o j : reachable m roots i -> nth_error m i = Some o -> In (Some j) (elts o) -> reachable m roots j.
Definition acyclic (m : heap) : Prop := exists r : nat -> nat, forall i o j,
  nth_error m i = Some o -> stat o = Live -> In (Some j) (elts o) -> (r j < r i)%nat.
Lemma occ_in i l : In (Some i) l <-> 0 < occ i l.
Proof.
  induction l as [|x l IH]; simpl; [split; [tauto|lia]|]. rewrite IH. destruct x as [j|].
  - destruct (Nat.eqb_spec i j) as [->|N].
    + split; [lia|auto].
    + split; [intros [X|X]; [congruence|lia]|intros X; right; lia].
  - split; [intros [X|X]; [discriminate|lia]|intros X; right; lia].
Qed.
Lemma inrefs_in m i : 0 < inrefs m i <-> exists j o, nth_error m j = Some o /\ stat o = Live /\ In (Some i) (elts o).
Proof.
  induction m as [|o m IH]; simpl.
  - split; [lia|]. intros (j & o & H & _). destruct j; discriminate.
  - split.
    + intros H. destruct (stat o) eqn:S.
      * destruct (N.eq_dec (occ i (elts o)) 0) as [Z|Z].
        { destruct (proj1 IH ltac:(lia)) as (j & o2 & H1 & H2). exists (Datatypes.S j), o2. auto. }
        exists O, o. split; [reflexivity|]. split; [exact S|]. apply occ_in. lia.
      * destruct (proj1 IH ltac:(lia)) as (j & o2 & H1 & H2). exists (Datatypes.S j), o2. auto.
      * destruct (proj1 IH ltac:(lia)) as (j & o2 & H1 & H2). exists (Datatypes.S j), o2. auto.
    + intros (j & o2 & H1 & H2 & H3). destruct j as [|j]; simpl in H1.
      * injection H1 as ->. rewrite H2. apply occ_in in H3. lia.
      * assert (0 < inrefs m i) by (apply IH; eauto). lia.
Qed.
Lemma reachable_live m roots i : counted m roots -> reachable m roots i -> exists o, nth_error m i = Some o /\ stat o = Live.
Proof.
  intros [A B D E] R.
  assert (G : forall k, 0 < roots k + inrefs m k -> exists o, nth_error m k = Some o /\ stat o = Live).
  { intros k Hk. destruct (nth_error m k) as [o|] eqn:H; [|exfalso; exact (D k Hk H)]. exists o. split; [reflexivity|].
    destruct (stat o) eqn:S; [reflexivity| |]; pose proof (B k o H ltac:(congruence)); lia. }
  induction R as [i H|i o H L C|i o j R IH H J]; [apply G; lia|eauto|].
  apply G. destruct IH as (o' & H' & L). replace o' with o in L by congruence.
  assert (0 < inrefs m j) by (apply inrefs_in; eauto). lia.
Qed.
Lemma live_reachable m roots : counted m roots -> acyclic m -> forall i o, nth_error m i = Some o -> stat o = Live -> reachable m roots i.
Proof.
  intros [A B D E] [r R]. set (top := list_max (map r (seq 0 (length m)))).
  assert (T : forall i o, nth_error m i = Some o -> (r i <= top)%nat).
  { intros i o H. assert (i < length m)%nat by (apply nth_error_Some; congruence).
    pose proof (proj1 (list_max_le (map r (seq 0 (length m))) top) (le_n _)) as X. rewrite Forall_forall in X. apply X.
    apply in_map. apply in_seq. lia. }
  assert (G : forall n i o, (top - r i < n)%nat -> nth_error m i = Some o -> stat o = Live -> reachable m roots i).
  { induction n as [|n IH]; [lia|]. intros i o Hn H L. destruct (N.eq_dec (count o) 0) as [C|C]; [exact (r_static m roots i o H L C)|].
    pose proof (A i o H L ltac:(lia)) as X. destruct (N.eq_dec (roots i) 0) as [Z|Z]; [|apply r_root; lia].
    destruct (proj1 (inrefs_in m i) ltac:(lia)) as (j & oj & Hj & Lj & Ij). apply (r_elt m roots j oj i); auto.
    apply (IH j oj); auto. pose proof (R j oj i Hj Lj Ij). pose proof (T j oj Hj). lia. }
  intros i o H L. exact (G _ i o (Nat.lt_succ_diag_r _) H L).
Qed.
(** C41: afterwards exactly the objects still in use are alive. *)
Theorem C41_collect_partial : forall m roots x fuel,
  counted m (plus roots [x]) -> quiet m -> acyclic m -> (W m < fuel)%nat ->
  exists m', decref fuel m x = Some m' /\ forall i o, nth_error m' i = Some o -> (stat o = Live <-> reachable m' roots i).
Proof.
  intros m roots x fuel K Q [r R] F. destruct (C41_heap_partial m roots x fuel K Q F) as (m' & E & K' & Q' & S). exists m'. split; [exact E|].
  assert (A' : acyclic m').
  { exists r. intros i o' j H' L J. destruct (nth_error m i) as [o|] eqn:H.
    - destruct (S i o H) as (o2 & H2 & P1 & P2 & P3 & _). rewrite H' in H2. injection H2 as <-. apply (R i o j H); [|congruence].
      destruct (stat o) eqn:X; [reflexivity|exfalso; exact (Q i o H X)|]. rewrite (P2 eq_refl) in L. congruence.
    - pose proof (proj1 (refs_len fuel) m x m' E) as L2. apply nth_error_None in H. assert (nth_error m' i <> None) as X by congruence. apply nth_error_Some in X. lia. }
  intros i o H. split; [intros L; exact (live_reachable m' roots K' A' i o H L)|].
  intros Rx. destruct (reachable_live m' roots i K' Rx) as (o2 & H2 & L2). congruence.
Qed.

(** Two lists sharing a tail, (0 1 . 2) and (3 . 1) where 2 is a vector holding a string 4
    twice; the holder of list 0 gives it back, then the holder of list 3. *)
Definition two_lists : heap :=
  [ {| count := 1; stat := Live; is_pair := true; elts := [None; Some 1%nat] |};
    {| count := 2; stat := Live; is_pair := true; elts := [Some 4%nat; Some 2%nat] |};
    {| count := 1; stat := Live; is_pair := false; elts := [Some 4%nat; None; Some 4%nat] |};
    {| count := 1; stat := Live; is_pair := true; elts := [Some 5%nat; Some 1%nat] |};
    {| count := 3; stat := Live; is_pair := false; elts := [] |};
    {| count := 0; stat := Live; is_pair := false; elts := [] |} ].
Definition holders (i : nat) : N := match i with 3%nat => 1 | _ => 0 end.
Lemma two_lists_counted : counted two_lists (plus holders [Some 0%nat]).
Proof.
  constructor.
  - intros i o H L C. unfold two_lists in H. do 6 (destruct i as [|i]; [injection H as <-; try reflexivity; simpl in C; lia|]). destruct i; discriminate.
  - intros i o H L. unfold two_lists in H. do 6 (destruct i as [|i]; [injection H as <-; exfalso; apply L; reflexivity|]). destruct i; discriminate.
  - intros i H. do 6 (destruct i as [|i]; [discriminate|]). exfalso. revert H. unfold plus, holders, inrefs, occ; simpl. lia.
  - intros i o H P. unfold two_lists in H. do 6 (destruct i as [|i]; [injection H as <-; try discriminate; simpl; eauto|]). destruct i; discriminate.
Qed.
Example C41_heap_case :
  quiet two_lists /\ acyclic two_lists /\
  option_map (map (fun o => (count o, stat o))) (decref 100 two_lists (Some 0%nat)) =
    Some [(0, Freed); (1, Live); (1, Live); (1, Live); (3, Live); (0, Live)] /\
  option_map (map (fun o => (count o, stat o))) (run m <- decref 100 two_lists (Some 0%nat); decref 100 m (Some 3%nat)) =
    Some [(0, Freed); (0, Freed); (0, Freed); (0, Freed); (0, Freed); (0, Live)].
Proof.
  split; [|split; [|split; vm_compute; reflexivity]].
  - intros i o H. unfold two_lists in H. do 6 (destruct i as [|i]; [injection H as <-; discriminate|]). destruct i; discriminate.
  - exists (fun i => match i with 0 => 3 | 1 => 2 | 2 => 1 | 3 => 4 | _ => 0 end)%nat. intros i o j H L J. unfold two_lists in H.
    do 6 (destruct i as [|i]; [injection H as <-; simpl in J; repeat destruct J as [J|J]; try discriminate; try contradiction; injection J as <-; simpl; lia|]). destruct i; discriminate.
Qed.
(** Cycles are never freed: two vectors containing each other survive their last holder. *)
Theorem C41_cycle_refuted : exists m m' x, counted m (plus (fun _ => 0) [x]) /\ quiet m /\ decref 100 m x = Some m' /\
  exists o, nth_error m' 0 = Some o /\ stat o = Live /\ ~ reachable m' (fun _ => 0) 0.
Proof.
  exists [ {| count := 2; stat := Live; is_pair := false; elts := [Some 1%nat] |}; {| count := 1; stat := Live; is_pair := false; elts := [Some 0%nat] |} ].
  eexists. exists (Some 0%nat). split; [|split; [|split; [vm_compute; reflexivity|]]].
  - constructor.
    + intros [|[|[|i]]] o H L C; try discriminate H; injection H as <-; reflexivity.
    + intros [|[|[|i]]] o H L; try discriminate H; injection H as <-; exfalso; apply L; reflexivity.
    + intros [|[|i]] H; discriminate.
    + intros [|[|[|i]]] o H P; try discriminate H; injection H as <-; discriminate.
  - intros [|[|[|i]]] o H; try discriminate H; injection H as <-; discriminate.
  - eexists. split; [reflexivity|]. split; [reflexivity|].
    assert (G : forall i, reachable [ {| count := 1; stat := Live; is_pair := false; elts := [Some 1%nat] |}; {| count := 1; stat := Live; is_pair := false; elts := [Some 0%nat] |} ] (fun _ => 0) i -> False).
    { intros i R. induction R as [i H|i o H L C|]; [lia| |assumption]. destruct i as [|[|[|i]]]; try discriminate H; injection H as <-; discriminate. }
    exact (G 0%nat).
Qed.

Print Assumptions C41_threads_partial.
Print Assumptions C41_room.
Print Assumptions C41_static.
Print Assumptions C41_wrap_refuted.
Print Assumptions C41_heap_partial.
Print Assumptions C41_collect_partial.
Print Assumptions C41_cycle_refuted.

(** Reference counts of an object with up to 2^45-2 references, shared by any number of threads
    that increment and decrement in any order: it is freed at most once, when nobody holds it,
    and nobody touches it afterwards or gets an error; when all are done and nobody holds it, it
    has been freed. *)
Theorem C89_refcounts : forall ty n s, ty < 0x80 -> reach long_hdr (2^45 - 2) (fresh ty n) s ->
  freed s <= 1 /\
  (freed s = 1 -> floating s = 0 /\ Forall (fun t => fst t = 0) (threads s)) /\
  touched s = false /\ nobody_raised s /\
  (all_idle s -> refs_of s = 0 -> freed s = 1).
Proof.
  intros ty n s T R. apply (C41_threads_partial long_hdr ty n (2^45 - 2)); [apply C41_room; exact T|lia|exact R].
Qed.
Example C89_refcounts_case : exists s, reach long_hdr (2^45 - 2) (fresh 9 1) s /\ all_idle s /\ refs_of s = 0 /\ freed s = 1.
Proof. exact C41_threads_case. Qed.
Print Assumptions C89_refcounts.

(** * Property C28: allocation hands out every identifier at most once. *)
From Coq Require Import FinFun.
From Verif Require Import BytesModel BytesProofs AllocModel AllocProofs.
Local Open Scope N_scope.

(** ** Specification

    The identifiers returned so far, as offsets from the pool's base. *)
Definition ids_of (e : event) : list N :=
  match e with
  | EGrant s n => map (fun i => s + N.of_nat i) (seq 0 (N.to_nat n))
  | ERefuse _ _ => []
  end.
Definition returned (l : list event) : list N := flat_map ids_of l.

(** ** Theorems *)

Lemma ids_in : forall s n k, In k (ids_of (EGrant s n)) <-> s <= k < s + n.
Proof.
  intros. simpl. rewrite in_map_iff. split.
  - intros (i & <- & H). apply in_seq in H. lia.
  - intros H. exists (N.to_nat (k - s)). split; [lia|]. apply in_seq. lia.
Qed.
Lemma ids_nodup : forall e, NoDup (ids_of e).
Proof.
  intros [s n|n l]; simpl; [|constructor].
  apply Injective_map_NoDup; [|apply seq_NoDup]. intros a b H. lia.
Qed.
Lemma returned_in : forall l k, In k (returned l) <-> exists s n, In (s, n) (grants l) /\ s <= k < s + n.
Proof.
  intros. unfold returned. rewrite in_flat_map. split.
  - intros (e & He & Hk). destruct e as [s n|]; [|contradiction]. exists s, n.
    rewrite in_grants. split; [assumption|]. now apply ids_in.
  - intros (s & n & H & Hk). exists (EGrant s n). rewrite in_grants in H. split; [assumption|]. now apply ids_in.
Qed.
Lemma nodup_app : forall (A : Type) (a b : list A), NoDup a -> NoDup b -> (forall x, In x a -> ~ In x b) -> NoDup (a ++ b).
Proof.
  induction a as [|x a IH]; simpl; intros b Ha Hb D; [assumption|].
  inversion Ha as [|y l Hx Hn]; subst. constructor.
  - rewrite in_app_iff. intros [H|H]; [contradiction|]. apply (D x); auto.
  - apply IH; auto.
Qed.
Lemma returned_nodup : forall l lo hi, tiles lo hi (grants l) -> NoDup (returned l).
Proof.
  induction l as [|e l IH]; intros lo hi H; [constructor|].
  unfold returned. simpl. destruct e as [s n|n ld].
  - simpl in H. destruct H as [H1 H2]. apply nodup_app; [apply ids_nodup|eapply IH; eassumption|].
    intros k Hk Hr. fold (returned l) in Hr. apply returned_in in Hr. destruct Hr as (s' & n' & HI & Hb).
    apply (ids_in s n k) in Hk. pose proof (tiles_in _ _ _ _ _ H2 HI). lia.
  - simpl in *. eapply IH; eassumption.
Qed.

(** In every interleaving of any number of threads allocating (any amounts up to [maxn])
    and committing, as long as no allocation comes between a commit's two accesses to the
    load: all identifiers ever returned are distinct, they lie between the initial load
    and the current load, which never exceeds the capacity, none is skipped below the
    last one returned, and a request is refused only when it does not fit. *)
Theorem C28_distinct_partial : forall cap maxn l0 s,
  cap + maxn < 2^32 -> maxn < 2^31 -> l0 <= cap ->
  reach_quiet cap maxn l0 s ->
  NoDup (returned (log s)) /\
  (forall k, In k (returned (log s)) -> l0 <= k < load s) /\
  load s <= cap /\
  (forall k k', In k (returned (log s)) -> l0 <= k' <= k -> In k' (returned (log s))) /\
  (forall n l, In (ERefuse n l) (log s) -> cap < l + n).
Proof.
  intros cap maxn l0 s Hw Hm Hl R. pose proof (inv_reach _ _ _ _ Hw Hm Hl R) as I.
  destruct (inv_tiles _ _ _ _ I) as (hi & Hhi & HT).
  assert (B : forall k, In k (returned (log s)) -> l0 <= k < hi).
  { intros k Hk. apply returned_in in Hk. destruct Hk as (a & n & HI & Hb).
    pose proof (tiles_in _ _ _ _ _ HT HI). lia. }
  split; [eapply returned_nodup; eassumption|].
  split; [intros k Hk; specialize (B k Hk); lia|].
  split; [apply (i_le _ _ _ _ I)|].
  split.
  - intros k k' Hk Hk'. apply B in Hk. apply returned_in. apply (tiles_cover _ _ _ HT). lia.
  - intros n l HI. apply (i_ref _ _ _ _ I _ _ HI).
Qed.

(** With no commits at all the side condition is void. *)
Definition allocating (x : tstate) : Prop := match x with CRead _ | CUpd _ => False | _ => True end.
Inductive reach_alloc (cap maxn l0 : N) : pstate -> Prop :=
| A_init : reach_alloc cap maxn l0 (start_state l0)
| A_step s s' : reach_alloc cap maxn l0 s -> step cap maxn s s' -> (forall t, allocating (th s' t)) ->
    reach_alloc cap maxn l0 s'.
Theorem C28_allocations_only_partial : forall cap maxn l0 s,
  cap + maxn < 2^32 -> maxn < 2^31 -> l0 <= cap ->
  reach_alloc cap maxn l0 s ->
  NoDup (returned (log s)) /\ forall k, In k (returned (log s)) -> l0 <= k < cap.
Proof.
  intros cap maxn l0 s Hw Hm Hl R.
  assert (HA : (forall t, allocating (th s t)) /\ reach_quiet cap maxn l0 s).
  { induction R as [|s s' R [IH1 IH2] St Ha]; [split; [intro; exact I|constructor]|].
    split; [assumption|]. eapply Q_step; eauto. intros t l Hu _. specialize (IH1 t). rewrite Hu in IH1. contradiction. }
  destruct (C28_distinct_partial _ _ _ _ Hw Hm Hl (proj2 HA)) as (H1 & H2 & H3 & _).
  split; [assumption|]. intros k Hk. specialize (H2 k Hk). lia.
Qed.

(** ** Concrete executions

    A schedule: which thread moves next, and what an idle thread starts. *)
Inductive cmd := Go | Call (n : N) | Commit.
Definition adv (cap maxn : N) (s : pstate) (a : nat * cmd) : option pstate :=
  let t := fst a in
  let mk ld fl lk ck x lg := Some {| load := ld; fload := fl; lock := lk; clock := ck; th := upd (th s) t x; log := lg |} in
  match th s t, snd a with
  | Idle, Call n => if n <=? maxn then mk (load s) (fload s) (lock s) (clock s) (AWant n) (log s) else None
  | Idle, Commit => match clock s with
                    | None => mk (load s) (fload s) (lock s) (Some t) (CRead (load s)) (log s)
                    | Some _ => None end
  | AWant n, Go => match lock s with None => mk (load s) (fload s) (Some t) (clock s) (AIn n) (log s) | Some _ => None end
  | AIn n, Go => if u32 (load s + n) <=? cap then mk (load s) (fload s) (lock s) (clock s) (AStart n) (log s)
                 else mk (load s) (fload s) (lock s) (clock s) (ARefuse n (load s)) (log s)
  | AStart n, Go => mk (load s) (fload s) (lock s) (clock s) (ABump n (load s)) (log s)
  | ABump n st, Go => mk (u32 (load s + n)) (fload s) (lock s) (clock s) (ADone n st) (log s)
  | ADone n st, Go => mk (load s) (fload s) None (clock s) Idle (EGrant st (loop_count n) :: log s)
  | ARefuse n l, Go => mk (load s) (fload s) None (clock s) Idle (ERefuse n l :: log s)
  | CRead l, Go => match lock s with None => mk (load s) (fload s) (Some t) (clock s) (CUpd l) (log s) | Some _ => None end
  | CUpd l, Go => mk (if negb (l =? fload s) then l else load s) (if negb (l =? fload s) then l else fload s) None None Idle (log s)
  | _, _ => None
  end.
Lemma adv_step : forall cap maxn s a s', adv cap maxn s a = Some s' -> step cap maxn s s'.
Proof.
  intros cap maxn s [t c] s' H. unfold adv in H. cbn [fst snd] in H.
  destruct (th s t) eqn:Et; destruct c as [|m|]; try discriminate.
  all: try (match type of H with (if ?b then _ else _) = _ => destruct b eqn:Eb end).
  all: try (match type of H with match ?b with Some _ => _ | None => _ end = _ => destruct b eqn:Eb end).
  all: try discriminate; injection H as <-.
  - apply S_call; [assumption|now apply N.leb_le].
  - now apply S_commit.
  - now apply S_lock.
  - now apply S_check_ok.
  - now apply S_check_fail.
  - now apply S_start.
  - now apply S_bump.
  - now apply S_done.
  - now apply S_refuse.
  - now apply S_commit_lock.
  - now apply S_commit_upd.
Qed.
Definition is_quiet (s : pstate) (a : nat * cmd) : bool :=
  match th s (fst a) with CUpd l => load s =? l | _ => true end.
Lemma adv_quiet : forall cap maxn s a s', adv cap maxn s a = Some s' -> is_quiet s a = true -> quiet s s'.
Proof.
  intros cap maxn s [t c] s' H Hq u l Hu Hi. unfold is_quiet in Hq. cbn [fst] in Hq.
  destruct (Nat.eq_dec u t) as [->|Hne].
  - rewrite Hu in Hq. now apply N.eqb_eq.
  - assert (th s' u = th s u).
    { unfold adv in H. cbn [fst snd] in H. destruct (th s t); destruct c as [|m|]; try discriminate.
      all: try (match type of H with (if ?b then _ else _) = _ => destruct b eqn:Eb end).
      all: try (match type of H with match ?b with Some _ => _ | None => _ end = _ => destruct b eqn:Eb end).
      all: try discriminate; injection H as <-; simpl; apply upd_other; assumption. }
    congruence.
Qed.
Fixpoint exec (q : bool) (cap maxn : N) (s : pstate) (l : list (nat * cmd)) : option pstate :=
  match l with
  | [] => Some s
  | a :: r => if (negb q || is_quiet s a)%bool
              then match adv cap maxn s a with Some s' => exec q cap maxn s' r | None => None end
              else None
  end.
Lemma exec_reach : forall cap maxn l0 l s s', reach cap maxn l0 s -> exec false cap maxn s l = Some s' -> reach cap maxn l0 s'.
Proof.
  induction l as [|a l IH]; simpl; intros s s' R H; [injection H as <-; assumption|].
  destruct (adv cap maxn s a) as [s1|] eqn:Ea; [|discriminate].
  apply (IH s1); [|assumption]. eapply R_step; [eassumption|]. eapply adv_step; eassumption.
Qed.
Lemma exec_quiet : forall cap maxn l0 l s s', reach_quiet cap maxn l0 s -> exec true cap maxn s l = Some s' -> reach_quiet cap maxn l0 s'.
Proof.
  induction l as [|a l IH]; simpl; intros s s' R H; [injection H as <-; assumption|].
  destruct (is_quiet s a) eqn:Eq; [|discriminate].
  destruct (adv cap maxn s a) as [s1|] eqn:Ea; [|discriminate].
  apply (IH s1); [|assumption]. eapply Q_step; [eassumption|eapply adv_step; eassumption|eapply adv_quiet; eassumption].
Qed.

(** Two interleaved requests, one granted, one refused, then a commit. *)
Example C28_distinct_met : exists s, reach_quiet 4 10 1 s /\ log s = [ERefuse 2 3; EGrant 1 2] /\ load s = 3 /\ fload s = 3.
Proof.
  pose (sch := [(0, Call 2); (1, Call 2); (0, Go); (0, Go); (0, Go); (0, Go); (0, Go); (1, Go); (1, Go); (1, Go);
                (0, Commit); (0, Go); (0, Go)]%nat).
  destruct (exec true 4 10 (start_state 1) sch) as [s|] eqn:E; [|vm_compute in E; discriminate].
  exists s. split; [eapply exec_quiet; [apply Q_init|exact E]|].
  vm_compute in E. injection E as <-. repeat split.
Qed.

(** ** Refutations

    An allocation between the two accesses of a commit is undone: thread 1 allocates and
    commits; while its commit is running thread 0 allocates offset 1; the commit then
    stores the old load, and offset 1 is returned again. *)
Theorem C28_commit_race_refuted : exists cap maxn l0 s,
  cap + maxn < 2^32 /\ maxn < 2^31 /\ l0 <= cap /\ reach cap maxn l0 s /\
  exists k, In (EGrant k 1) (log s) /\ ~ NoDup (returned (log s)).
Proof.
  exists 100, 10, 0.
  pose (sch := [(1, Call 1); (1, Go); (1, Go); (1, Go); (1, Go); (1, Go);   (* offset 0 *)
                (1, Commit);                                                (* reads load = 1 *)
                (0, Call 1); (0, Go); (0, Go); (0, Go); (0, Go); (0, Go);   (* offset 1 *)
                (1, Go); (1, Go);                                           (* load := 1 *)
                (0, Call 1); (0, Go); (0, Go); (0, Go); (0, Go); (0, Go)]%nat).
  destruct (exec false 100 10 (start_state 0) sch) as [s|] eqn:E; [|vm_compute in E; discriminate].
  exists s. do 3 (split; [lia|]). split; [eapply exec_reach; [apply R_init|exact E]|].
  exists 1. vm_compute in E. injection E as <-. cbn. split; [auto|].
  intro C. inversion C as [|x l Hx Hl]; subst. apply Hx. now left.
Qed.

(** The sum of load and request is a 32-bit number: near the top of a large pool a
    request that does not fit is granted, beyond the pool's range. *)
Theorem C28_wraparound_refuted : exists cap maxn l0 s,
  maxn < 2^31 /\ l0 <= cap /\ cap < 2^32 /\ reach_quiet cap maxn l0 s /\
  exists k, In k (returned (log s)) /\ cap <= k.
Proof.
  exists (2^32 - 1), 10, (2^32 - 1).
  pose (sch := [(0, Call 1); (0, Go); (0, Go); (0, Go); (0, Go); (0, Go)]%nat).
  destruct (exec true (2^32 - 1) 10 (start_state (2^32 - 1)) sch) as [s|] eqn:E; [|vm_compute in E; discriminate].
  exists s. do 3 (split; [lia|]). split; [eapply exec_quiet; [apply Q_init|exact E]|].
  exists (2^32 - 1). vm_compute in E. injection E as <-. split; [now left|lia].
Qed.

(** A request of 2^32-1 identifiers (accepted by allocate-oids) is read as -1: nothing is
    returned, but the load goes down and the last identifier is returned again. *)
Theorem C28_negative_request_refuted : exists cap maxn l0 s,
  cap < 2^31 /\ maxn < 2^32 /\ l0 <= cap /\ reach_quiet cap maxn l0 s /\ ~ NoDup (returned (log s)).
Proof.
  exists 100, (2^32 - 1), 0.
  pose (sch := [(0, Call 1); (0, Go); (0, Go); (0, Go); (0, Go); (0, Go);
                (0, Call (2^32 - 1)); (0, Go); (0, Go); (0, Go); (0, Go); (0, Go);
                (0, Call 1); (0, Go); (0, Go); (0, Go); (0, Go); (0, Go)]%nat).
  destruct (exec true 100 (2^32 - 1) (start_state 0) sch) as [s|] eqn:E; [|vm_compute in E; discriminate].
  exists s. do 3 (split; [lia|]). split; [eapply exec_quiet; [apply Q_init|exact E]|].
  vm_compute in E. injection E as <-. cbn.
  intro C. inversion C as [|x l Hx Hl]; subst. apply Hx. now left.
Qed.

(** Two processes, both following the locking protocol: after its first commit a process
    keeps the flag that says it holds the file lock, does not look at the file again, and
    returns an identifier the other process has allocated and committed. *)
Definition fresh : world := {| w_file := 0; w_os := None; w_procs := fun _ => {| p_load := 0; p_flag := false |} |}.
Theorem C28_two_processes_refuted : exists a b c w1 w2 w3,
  w_alloc 100 fresh 0 = Some (a, w1) /\
  w_alloc 100 (w_commit_unlock w1 0) 1 = Some (b, w2) /\
  w_alloc 100 (w_commit_unlock w2 1) 0 = Some (c, w3) /\ a <> b /\ b = c.
Proof. do 6 eexists. split; [reflexivity|]. split; [reflexivity|]. split; [reflexivity|]. vm_compute. split; congruence. Qed.

(** The full statement for a single request through kno_pool_alloc: either [n]
    identifiers are returned and the load grows by [n], or there is an error and the load
    is unchanged. *)
Definition request_ok (cap load n : N) (r : option N * N) : Prop :=
  (r = (Some n, load + n) /\ load + n <= cap) \/ r = (None, load).
Theorem C28_request_partial : forall cap load n, load <= cap -> 1 <= n < 2^31 -> cap + n < 2^32 ->
  request_ok cap load n (pool_alloc true cap load n).
Proof.
  intros cap load n Hl Hn Hw. unfold pool_alloc, driver_alloc, request_ok. rewrite u32_small by lia.
  assert (EL : loop_count n = n) by (unfold loop_count; destruct (N.ltb_spec n (2^31)); lia). rewrite EL.
  destruct (N.leb_spec (load + n) cap); [left|right; reflexivity].
  destruct (N.eqb_spec n 0); [lia|]. destruct (N.eqb_spec n 1); split; auto.
Qed.
Example C28_request_met : pool_alloc true 100 7 5 = (Some 5, 12) /\ pool_alloc true 100 97 5 = (None, 97).
Proof. split; reflexivity. Qed.
(** File pools answer a request for two or more identifiers with an error, although they
    have consumed them; an allocation of no identifiers is an error in all pools. *)
Theorem C28_filepool_many_refuted : exists cap load n, load <= cap /\ 1 <= n < 2^31 /\ cap + n < 2^32 /\
  ~ request_ok cap load n (pool_alloc false cap load n).
Proof.
  exists 100, 7, 2. split; [lia|]. split; [lia|]. split; [lia|].
  intros [[E _]|E]; vm_compute in E; discriminate.
Qed.
Theorem C28_filepool_single_partial : forall cap load, load <= cap -> cap + 1 < 2^32 ->
  request_ok cap load 1 (pool_alloc false cap load 1).
Proof.
  intros cap load Hl Hw. unfold pool_alloc, driver_alloc, request_ok. rewrite u32_small by lia.
  destruct (N.leb_spec (load + 1) cap); [left; split; auto|right; reflexivity].
Qed.

Print Assumptions C28_distinct_partial.
Print Assumptions C28_allocations_only_partial.
Print Assumptions C28_commit_race_refuted.
Print Assumptions C28_wraparound_refuted.
Print Assumptions C28_negative_request_refuted.
Print Assumptions C28_two_processes_refuted.
Print Assumptions C28_request_partial.
Print Assumptions C28_filepool_many_refuted.
Print Assumptions C28_filepool_single_partial.

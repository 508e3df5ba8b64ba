(** C120, C121: the values of a pool's OIDs through its cache and its changes. *)

From Coq Require Import List ZArith Bool Lia.
Import ListNotations.
From Verif Require Import PoolCacheModel PoolCacheSpec PoolCacheProofs PoolCacheProofs2 PoolCacheProofs3.
Local Open Scope Z_scope.

(** ** C120 *)

(** A pool that can be locked, opened over whatever is stored, and any orderly
    history ([orderly_run]) of reads, settings, changes of slots, locks (granted
    or refused), prefetches, swap-outs, commits (that succeed, or fail after
    writing any part), unlocks and allocations, with any caching level: what
    every operation gives is what a program expects which knows only what it did
    itself, and after every step exactly the expected values are stored. *)
Theorem C120_values_as_expected : forall c m l t s,
  nolock c = false -> c_svirt c = false -> fit m ->
  orderly_run c (opened m) l -> run c (opened m) l = (t, s) ->
  exists cu, tells (MkV m m) t (MkV cu (store s)).
Proof.
  intros c m l t s Hl Hr Hf Ho H.
  destruct (run_ok c Hl Hr l (opened m) m t s (opened_R m Hf) Ho H) as (cu & _ & T).
  exists cu. exact T.
Qed.

Definition c0 : cfg := MkC 1 true false false false false.
Definition m0 : Z -> saved :=
  fun o => if o =? 1 then STab 10 else if o =? 2 then STab 20 else if o =? 3 then SUnalloc else SEmpty.
Definition ok : copts := MkCo true true 0 (fun _ => false) 0.
Definition held : copts := MkCo true true 0 (fun _ => true) 0.
Definition nostart : copts := MkCo false true 0 (fun _ => false) 0.
Definition nowrite : copts := MkCo true false 1 (fun _ => false) 0.
Definition answers (c : cfg) (m : Z -> saved) (l : list op) : list res := map snd (fst (run c (opened m) l)).
Definition left_by (c : cfg) (m : Z -> saved) (l : list op) : Z -> saved := store (snd (run c (opened m) l)).

Definition h1 : list op :=
  [ORead 1; OEdit 1 (fun z => z + 1) 1; ORead 1; OSwap None; ORead 1; OCommit WAll nowrite; ORead 1;
   OSet 2 (SetTab 7) 0; OSet 2 (SetTab 7) 1; OAlloc 3; OEdit 3 (fun z => z + 5) 1; OCommit (WNamed [3; 2]) held;
   OUnlock None Leave ok; OSwap None; ORead 1; ORead 2; ORead 3; OUnlock None Discard ok; ORead 1].
Example C120_values_as_expected_case :
  fit m0 /\ orderly_run c0 (opened m0) h1 /\
  answers c0 m0 h1 =
    [RVal (STab 10); RInt 1; RVal (STab 11); RInt 0; RVal (STab 11); RErr; RVal (STab 11);
     RErr; RInt 1; RInt 0; RInt 1; RInt 2; RInt 2; RInt 0; RVal (STab 11); RVal (STab 7); RVal (STab 5);
     RInt 1; RVal (STab 11)] /\
  map (left_by c0 m0 h1) [1; 2; 3] = [STab 11; STab 7; STab 5].
Proof.
  split; [ | split; [ | split; reflexivity]].
  - intros o. unfold m0. destruct (o =? 1); [split; discriminate | ]. destruct (o =? 2); [split; discriminate | ].
    destruct (o =? 3); split; discriminate.
  - unfold h1. repeat (cbn [orderly_run]; split; [cbn [orderly] | ]); try exact I.
    all: unfold allocated, named_ok, lockedp.
    all: repeat match goal with
    | |- _ /\ _ => split
    | |- NoDup _ => repeat (constructor; [cbn [In]; lia | ]); constructor
    | |- forall o, In o _ -> _ => intros o [<- | [<- | []]]; vm_compute; reflexivity
    | |- _ <> _ => let H := fresh in intro H; vm_compute in H; discriminate
    | |- True => exact I
    | |- _ <= _ => cbn; lia
    | |- _ = _ => vm_compute; reflexivity
    end.
Qed.
Print Assumptions C120_values_as_expected.

(** If the driver grants the lock, an OID can be set, and it can be changed if
    its value is a table or it has none. *)
Theorem C120_granted : forall c m l t s,
  nolock c = false -> c_svirt c = false -> fit m ->
  orderly_run c (opened m) l -> run c (opened m) l = (t, s) ->
  exists cu, tells (MkV m m) t (MkV cu (store s)) /\
  forall o k, 0 < k -> store s o <> SUnalloc ->
    (forall v, fst (step c s (OSet o v k)) = RInt 1) /\
    ((cu o = SEmpty \/ exists z, cu o = STab z) -> forall f, fst (step c s (OEdit o f k)) = RInt 1).
Proof.
  intros c m l t s Hl Hr Hf Ho H.
  destruct (run_ok c Hl Hr l (opened m) m t s (opened_R m Hf) Ho H) as (cu & HR & T).
  exists cu. split; [exact T | ]. intros o k Hk Ha. split.
  - intros v. exact (set_granted c Hl Hr s o v k Hk).
  - intros Hv f. exact (edit_granted c Hl Hr s cu o f k HR Ha Hk Hv).
Qed.
Example C120_granted_case :
  let s := snd (run c0 (opened m0) h1) in
  store s 1 <> SUnalloc /\ fst (step c0 s (OSet 1 (SetVal (VAtom 3)) 1)) = RInt 1 /\
  fst (step c0 s (OEdit 4 (fun z => z + 1) 1)) = RInt 1 /\ fst (step c0 s (OEdit 4 (fun z => z + 1) 0)) = RErr.
Proof. repeat split; vm_compute; congruence. Qed.
Print Assumptions C120_granted.

(** After an orderly history and a commit of everything that succeeds, a pool
    opened anew over what is stored gives for every OID what this one gives. *)
Theorem C120_committed_survives : forall c m l t s co n s1,
  nolock c = false -> c_svirt c = false -> fit m ->
  orderly_run c (opened m) l -> run c (opened m) l = (t, s) -> 0 <= co_unlock co ->
  step c s (OCommit WAll co) = (RInt n, s1) ->
  forall c' o, nolock c' = false -> c_svirt c' = false ->
    fst (step c' (opened (store s1)) (ORead o)) = fst (step c s1 (ORead o)) /\
    fst (step c s1 (ORead o)) = fst (step c s (ORead o)).
Proof.
  intros c m l t s co n s1 Hl Hr Hf Ho H Hu Hc c' o Hl' Hr'.
  destruct (run_ok c Hl Hr l (opened m) m t s (opened_R m Hf) Ho H) as (cu & HR & _).
  destruct (step_ok c Hl Hr s cu (OCommit WAll co) (RInt n) s1 HR (conj Hu I) Hc) as (cu1 & HR1 & T1).
  cbn in T1. destruct T1 as (T1 & T2). cbn in T1, T2.
  assert (Hrd : forall c2 s2 cu2, nolock c2 = false -> c_svirt c2 = false -> Rok s2 cu2 ->
            fst (step c2 s2 (ORead o)) = answer (cu2 o)).
  { intros c2 s2 cu2 E1 E2 HR2. destruct (step c2 s2 (ORead o)) as [r s3] eqn:Es.
    destruct (step_ok c2 E1 E2 s2 cu2 (ORead o) r s3 HR2 I Es) as (cu3 & _ & T). cbn in T. apply T. }
  rewrite (Hrd c' (opened (store s1)) (store s1) Hl' Hr' (opened_R _ (r_fit _ _ HR1))).
  rewrite (Hrd c s1 cu1 Hl Hr HR1), (Hrd c s cu Hl Hr HR).
  rewrite T1, T2. split; reflexivity.
Qed.
Example C120_committed_survives_case :
  let h := [OEdit 1 (fun z => z + 1) 1; OSet 4 (SetVal (VCons 9)) 1; OLock [2] 1] in
  let s := snd (run c0 (opened m0) h) in
  fst (step c0 s (OCommit WAll ok)) = RInt 2 /\
  fst (step c0 (opened (store (snd (step c0 s (OCommit WAll ok))))) (ORead 1)) = RVal (STab 11).
Proof. split; reflexivity. Qed.
Print Assumptions C120_committed_survives.

(** ** C121: beyond orderly histories *)

(** The driver's lock on its file, once taken, is only ever given up by an unlock
    that commits: not by a commit, not by an unlock which discards or leaves. *)
Theorem C121_file_lock_kept : forall c s x,
  flock s = true -> flock (snd (step c s x)) = false -> exists os co, x = OUnlock os Commit co.
Proof. exact flock_kept. Qed.
Example C121_file_lock_kept_case :
  let s := snd (run c0 (opened m0) [OSet 1 (SetVal (VAtom 5)) 1]) in
  flock s = true /\ flock (snd (step c0 s (OUnlock None Commit ok))) = false.
Proof. split; reflexivity. Qed.
Print Assumptions C121_file_lock_kept.

(** So a pool of which everything is discarded or committed, with no OID left in
    its changes, keeps its file locked. *)
Theorem C121_file_unlocked_refuted : exists l l',
  let s := snd (run c0 (opened m0) l) in let s' := snd (run c0 (opened m0) l') in
  last l (ORead 0) = OUnlock None Discard ok /\ chg s = [] /\ flock s = true /\
  last l' (ORead 0) = OCommit WAll ok /\ chg s' = [] /\ flock s' = true.
Proof.
  exists [OSet 1 (SetVal (VAtom 5)) 1; OUnlock None Discard ok],
         [OSet 1 (SetVal (VAtom 5)) 1; OCommit WAll ok].
  repeat split.
Qed.
Print Assumptions C121_file_unlocked_refuted.

(** Committing an OID which is not locked, while another one is, writes VOID over
    its stored value. *)
Theorem C121_named_commit_refuted : exists l, exists o,
  (forall v k, ~ In (OSet o v k) l) /\ m0 o = STab 10 /\
  answers c0 m0 l = [RInt 1; RInt 1] /\ left_by c0 m0 l o = SVoid.
Proof.
  exists [OSet 2 (SetVal (VAtom 5)) 1; OCommit (WNamed [1]) ok], 1.
  split; [ | repeat split]. intros v k [H | [H | []]]; discriminate.
Qed.
Print Assumptions C121_named_commit_refuted.

(** One table stored for two OIDs: both show it, a commit of everything succeeds,
    and only one has it stored. *)
Theorem C121_shared_table_refuted : exists l,
  answers c0 m0 l = [RInt 1; RInt 1; RVal (STab 7); RVal (STab 7); RInt 1] /\
  last l (ORead 0) = OCommit WAll ok /\
  left_by c0 m0 l 1 = STab 7 /\ left_by c0 m0 l 2 = STab 20.
Proof.
  exists [OSet 1 (SetTab 7) 1; OSet 2 (SetRaw 0) 1; ORead 1; ORead 2; OCommit WAll ok]. repeat split.
Qed.
Print Assumptions C121_shared_table_refuted.

(** Storing for one OID the table read of another makes changes of the one show
    up in the other, where they are never stored. *)
Theorem C121_aliased_refuted : exists l,
  answers c0 m0 l = [RVal (STab 10); RInt 1; RInt 1; RVal (STab 11); RInt 1; RVal (STab 11)] /\
  (forall v k, ~ In (OSet 1 v k) l) /\ (forall f k, ~ In (OEdit 1 f k) l) /\
  left_by c0 m0 l 1 = STab 10.
Proof.
  exists [ORead 1; OSet 2 (SetRaw 0) 1; OEdit 2 (fun z => z + 1) 1; ORead 1; OCommit WAll ok; ORead 1].
  split; [reflexivity | ]. split; [ | split; [ | reflexivity]];
    intros v k H; cbn in H; repeat (destruct H as [H | H]; [discriminate | ]); exact H.
Qed.
Print Assumptions C121_aliased_refuted.

(** Discarding the changes of one OID discards those of the others. *)
Theorem C121_discard_named_refuted : exists l,
  In (OUnlock (Some [2]) Discard ok) l /\
  answers c0 m0 l = [RInt 1; RInt 1; RInt 2; RVal (STab 10)] /\ last l (ORead 0) = ORead 1.
Proof.
  exists [OSet 1 (SetVal (VAtom 5)) 1; OSet 2 (SetVal (VAtom 6)) 1; OUnlock (Some [2]) Discard ok; ORead 1].
  split; [cbn; tauto | split; reflexivity].
Qed.
Print Assumptions C121_discard_named_refuted.

(** An OID that was locked and never read stays locked: unlocking everything,
    with or without a commit, does not unlock it. *)
Theorem C121_unlock_refuted : exists l, exists o,
  answers c0 m0 l = [RInt 1; RInt 0; RInt 0; RInt 1] /\
  l = [OLock [o] 1; OUnlock None Leave ok; OUnlock None Commit ok; OLocked o].
Proof. exists [OLock [1] 1; OUnlock None Leave ok; OUnlock None Commit ok; OLocked 1], 1. split; reflexivity. Qed.
Print Assumptions C121_unlock_refuted.

(** If locking fails (rather than being refused) the value is set all the same;
    what was cached before is read again after the commit. *)
Theorem C121_lock_failure_refuted : exists l,
  answers c0 m0 l = [RVal (STab 10); RInt 1; RVal (SAtom 5); RInt 1; RVal (STab 10)] /\
  In (OSet 1 (SetVal (VAtom 5)) (-1)) l /\ left_by c0 m0 l 1 = SAtom 5.
Proof.
  exists [ORead 1; OSet 1 (SetVal (VAtom 5)) (-1); ORead 1; OCommit WAll ok; ORead 1].
  split; [reflexivity | split; [cbn; tauto | reflexivity]].
Qed.
Print Assumptions C121_lock_failure_refuted.

(** An unlock whose commit fails may succeed. *)
Theorem C121_unlock_reports_refuted : exists l,
  answers c0 m0 l = [RInt 1; RVal (STab 20); RInt 1; RInt 0] /\
  last l (ORead 0) = OUnlock None Commit nostart /\
  fst (step c0 (snd (run c0 (opened m0) (removelast l))) (OCommit WAll nostart)) = RErr /\
  left_by c0 m0 l 1 = STab 10.
Proof.
  exists [OLock [2] 1; ORead 2; OSet 1 (SetVal (VAtom 5)) 1; OUnlock None Commit nostart]. repeat split.
Qed.
Print Assumptions C121_unlock_reports_refuted.

(** An OID that was read before it was allocated stays an error, though it is
    allocated, set and stored, until it is swapped out. *)
Theorem C121_alloc_refuted : exists l,
  answers c0 m0 l = [RErr; RInt 0; RInt 1; RInt 1; RErr; RInt 0; RVal (SAtom 5)] /\
  l = [ORead 3; OAlloc 3; OSet 3 (SetVal (VAtom 5)) 1; OCommit WAll ok; ORead 3; OSwap None; ORead 3].
Proof. eexists. split; [ | reflexivity]. reflexivity. Qed.
Print Assumptions C121_alloc_refuted.

(** A table which the program got for changing remains writable after the OID is
    unlocked; what is changed then is lost. *)
Theorem C121_touch_refuted : exists l,
  answers c0 m0 l = [RInt 1; RInt 1; RInt 1; RInt 1; RVal (STab 11); RInt 0] /\
  In (OTouch 0 (fun z => z + 100)) l /\
  left_by c0 m0 l 1 = STab 11 /\ last l (ORead 0) = OCommit WAll ok.
Proof.
  exists [OEdit 1 (fun z => z + 1) 1; OCommit WAll held; OUnlock None Leave ok;
          OTouch 0 (fun z => z + 100); ORead 1; OCommit WAll ok].
  split; [reflexivity | split; [cbn; tauto | split; reflexivity]].
Qed.
Print Assumptions C121_touch_refuted.

(** If the driver fails to unlock what a commit has written, the next commit
    writes VOID over it. *)
Theorem C121_unlock_failure_refuted : exists l,
  answers c0 m0 l = [RInt 1; RInt 1; RVal (SAtom 5); RInt 1; RInt 0; RVal SVoid] /\
  l = [OSet 1 (SetVal (VAtom 5)) 1; OCommit WAll (MkCo true true 0 (fun _ => false) (-1)); ORead 1;
       OCommit WAll ok; OSwap None; ORead 1] /\
  left_by c0 m0 l 1 = SVoid.
Proof. eexists. split; [ | split; [reflexivity | ]]; reflexivity. Qed.
Print Assumptions C121_unlock_failure_refuted.

(** In a pool without locks (no lock handler: netpools and others) what is set is
    held in the cache only: a commit writes nothing, swapping out loses it, and
    without caching it is never seen. *)
Theorem C121_no_locks_refuted : exists l,
  l = [OSet 1 (SetVal (VAtom 5)) 1; ORead 1; OCommit WAll ok; OSwap None; ORead 1] /\
  answers (MkC 1 false false false false false) m0 l =
    [RInt 1; RVal (SAtom 5); RInt 0; RInt 0; RVal (STab 10)] /\
  answers (MkC 0 false false false false false) m0 l =
    [RInt 1; RVal (STab 10); RInt 0; RInt 0; RVal (STab 10)].
Proof. eexists. split; [reflexivity | ]. split; reflexivity. Qed.
Print Assumptions C121_no_locks_refuted.

(** In a pool flagged to do without locks whose driver has a lock handler, an OID
    that is allocated and then set still reads as having no value. *)
Theorem C121_no_locks_alloc_refuted : exists l,
  l = [OAlloc 3; OSet 3 (SetVal (VAtom 5)) 1; ORead 3] /\
  answers (MkC 1 true true false false false) m0 l = [RInt 0; RInt 1; RVal SEmpty].
Proof. eexists. split; reflexivity. Qed.
Print Assumptions C121_no_locks_alloc_refuted.

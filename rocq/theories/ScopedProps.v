(** * C77-C80: choices, slotmaps, hashtables and schemaps, with the limits of C07-C12, C14-C16
    and C19 as hypotheses.

    The specifications are those of ChoicesProps ([wf], [den], [canonical]), SlotmapProps
    ([wf_op], [ahist]), HashtableProps ([wf_hop], [hhist]) and SchemapProps ([wf_sop], [shist]). *)
From Coq Require Import Lia Permutation Sorting.Sorted List.
From Verif Require Import ValueModel ValueProofs SortModel SortProofs ChoicesModel SlotmapModel SchemapModel
  ChoicesProofs ChoicesProofs2 ChoicesProofs3 ChoicesProps TableProofs SlotmapProofs SlotmapProps
  HashtableModel HashtableProofs HashtableProps SchemapProps.
Import ListNotations.

(** Choices as finite sets.  Take values that are exact, are not choices and hold no NUL bytes in
    their strings, and any program of unions, intersections, differences, additions and
    normalisations that does not hand the empty accumulator on.  Its result is the canonical
    form of the set the program stands for: programs for equal sets give equal values, and
    membership, overlap and containment (of what is not empty) are those of the sets. *)
Theorem C77_choices : forall cf e, 0 < block_size cf -> wf e ->
  (exists s, run cf (PSimplify e) = Some (Simple s) /\ canonical s (den e)) /\
  (forall cf' e', 0 < block_size cf' -> wf e' -> (forall x, den e x <-> den e' x) ->
    exists s s', run cf (PSimplify e) = Some (Simple s) /\ run cf' (PSimplify e') = Some (Simple s') /\ toval s = toval s') /\
  (forall key, vok key = true -> plain key = true -> key <> KEMPTY ->
    exists x b, run cf e = Some x /\ kno_choice_containsp cf key x = Some b /\ (b = true <-> den e key)) /\
  (forall e', wf e' -> exists x y r, run cf e = Some x /\ run cf e' = Some y /\ kno_overlapp cf x y = Some r /\
    (r = true <-> exists v, den e v /\ den e' v)) /\
  (forall e', wf e' -> (exists v, den e v) ->
    exists x y r, run cf e = Some x /\ run cf e' = Some y /\ kno_containsp cf x y = Some r /\
    (r = true <-> forall v, den e v -> den e' v)) /\
  (forall e', wf e' -> exists s, run cf (PSimplify (PDiff e e')) = Some (Simple s) /\
    canonical s (fun x => den e x /\ ~ den e' x)) /\
  (forall l, wf (PUnion (e :: l)) -> exists s, run cf (PUnion (e :: l)) = Some (Simple s) /\
    canonical s (fun x => exists a, In a (e :: l) /\ den a x)) /\
  (forall l, wf (PInter e l) -> exists s, run cf (PSimplify (PInter e l)) = Some (Simple s) /\
    canonical s (fun x => forall a, In a (e :: l) -> den a x)).
Proof.
  intros cf e B W. split; [apply C07_accumulated_set_partial; assumption|].
  split; [intros; apply C07_order_independent_partial; assumption|].
  split; [intros; apply C08_membership_partial; assumption|].
  split; [intros; apply C12_overlap_partial; assumption|].
  split; [intros; apply C12_containment_partial; assumption|].
  split; [intros; apply C11_difference_partial; assumption|].
  split; [intros; apply C09_union_partial; assumption|].
  intros; apply C10_intersection_partial; assumption.
Qed.
Example C77_choices_case : 0 < block_size cf0 /\ wf ex_a /\ wf ex_b /\ wf (PUnion [ex_a; ex_b]) /\
  run cf0 (PUnion [ex_a; ex_b]) =
  Some (Simple (SChoice false [VAtom 6; VAtom 14; VAtom 22; VAtom 30; VStr [97%N]; VStr [98%N]])).
Proof.
  split; [cbn; lia|]. split; [exact ex_a_wf|]. split; [exact ex_b_wf|]. split; [|exact C09_ex].
  cbn; repeat split; try reflexivity; discriminate.
Qed.
Print Assumptions C77_choices.

(** A history and its results determine the map. *)
Lemma astep_det a o r a1 a2 : astep a o r a1 -> astep a o r a2 -> a1 = a2.
Proof.
  destruct o; cbn [astep]; repeat match goal with |- context [if ?b then _ else _] => destruct b eqn:? end;
    unfold refused, added, removed; intuition (subst; try congruence; try discriminate);
    repeat match goal with H : exists _, _ |- _ => destruct H end; exfalso; eauto.
Qed.
Lemma ahist_det a ops rs a1 a2 : ahist a ops rs a1 -> ahist a ops rs a2 -> a1 = a2.
Proof.
  intros H. revert a2. induction H as [a|a o r b ops rs c S H IH]; intros a2 H2; inversion H2; subst; [reflexivity|].
  apply IH. match goal with Q : astep _ _ _ ?b', T : ahist ?b' _ _ _ |- _ => rewrite (astep_det _ _ _ _ _ S Q); exact T end.
Qed.
Lemma hstep_det a o r a1 a2 : hstep a o r a1 -> hstep a o r a2 -> a1 = a2.
Proof.
  destruct o; cbn [hstep]; repeat match goal with |- context [if ?b then _ else _] => destruct b eqn:? end;
    unfold refuse, nothing, is_new, was_there; intuition (subst; try congruence; try discriminate);
    repeat match goal with H : exists _, _ |- _ => destruct H end; exfalso; eauto.
Qed.
Lemma hhist_det a ops rs a1 a2 : hhist a ops rs a1 -> hhist a ops rs a2 -> a1 = a2.
Proof.
  intros H. revert a2. induction H as [a|a o r b ops rs c S H IH]; intros a2 H2; inversion H2; subst; [reflexivity|].
  apply IH. match goal with Q : hstep _ _ _ ?b', T : hhist ?b' _ _ _ |- _ => rewrite (hstep_det _ _ _ _ _ S Q); exact T end.
Qed.

(** Slotmaps as maps from keys to sets of values: for all histories of stores, additions, drops,
    deletions, sorting, and switching to read-only mode, with keys and values as for C77.  Every
    call returns what the map says, and getting, testing and listing the keys show the map;
    what an operation is not about it leaves alone. *)
Theorem C78_slotmaps : forall cf space ops, 0 < block_size cf -> Forall wf_op ops ->
  exists rs sm a, sm_run cf (init_slotmap space) ops = Some (rs, sm) /\ ahist a_init ops rs a /\
    (forall k d, key_ok k -> exists v, slotmap_get cf sm k d = Some v /\
      (pres (am a) k -> exists s, v = Simple s /\ canonical s (cont (am a) k)) /\
      (~ pres (am a) k -> v = d)) /\
    (forall k e, key_ok k -> okval e -> exists v b, run cf e = Some v /\ slotmap_test cf sm k v = Some b /\
      (b = true <-> pres (am a) k /\
        ((exists y, den e y /\ cont (am a) k y) \/ (forall y, ~ den e y) /\ (forall y, ~ cont (am a) k y)))) /\
    (exists s, slotmap_keys cf sm = Some (Simple s) /\
      canonical s (fun k => key_ok k /\ ~ forall d, slotmap_get cf sm k d = Some d)) /\
    (forall o r sm' k d, wf_op o -> sm_step cf sm o = Some (r, sm') -> key_ok k -> touched o <> Some k ->
      slotmap_get cf sm' k d = slotmap_get cf sm k d).
Proof.
  intros cf space ops B W. destruct (C14_slotmap_history_partial cf space ops B W) as (rs & sm & a & R & H & _ & G).
  assert (RE : reaches cf space ops rs sm) by exact R.
  exists rs, sm, a. split; [exact R|]. split; [exact H|]. split; [exact G|]. split.
  { intros k e K E. destruct (C14_slotmap_test_partial cf space ops rs sm k e B W RE K E) as (a' & v & b & H' & X & Y & Z).
    rewrite (ahist_det _ _ _ _ _ H H'). exists v, b. auto. }
  split; [apply (C19_slotmap_keys_partial cf space ops rs sm); assumption|].
  intros o r sm' k d O S K T. apply (C14_other_keys_partial cf space ops rs sm o r sm' k d); assumption.
Qed.
Example C78_slotmaps_case : 0 < block_size cfx /\ Forall wf_op ops_ex /\
  exists sm, sm_run cfx (init_slotmap 2) ops_ex = Some ([1; 1; 1; 1; 0; 1; 1; 1; 1; 1; 1; 1; -1]%Z, sm) /\
    slotmap_get cfx sm (fx 5) EMPTYV = Some (Simple (SChoice true [fx 50; fx 51])).
Proof.
  split; [cbn; lia|]. split; [exact ex_ops_wf|]. eexists. split; [vm_compute; reflexivity|]. vm_compute. reflexivity.
Qed.
Print Assumptions C78_slotmaps.

(** Hashtables as maps from keys to sets of values, whatever the hash function is: for all
    histories of up to 2^28 stores, additions, drops, resizings, resettings and switching to
    read-only mode, with keys and values as for C77. *)
Theorem C79_hashtables : forall hc cf n ops, 0 < block_size cf -> hcfg_ok hc ->
  (n < 1610612741)%Z -> (N.of_nat (length ops) < 2 ^ 28)%N -> Forall wf_hop ops ->
  exists ht0 rs ht a, make_hashtable n = Some ht0 /\ ht_run hc cf ht0 ops = Some (rs, ht) /\ hhist h_init ops rs a /\
    (forall k d, key_ok k -> exists v, hashtable_get hc cf ht k d = Some v /\
      (pres (hm a) k -> exists s, v = Simple s /\ canonical s (cont (hm a) k)) /\
      (~ pres (hm a) k -> v = d)) /\
    (forall k e, key_ok k -> okval e -> exists b v t, hashtable_probe hc ht k = Some b /\ (b = true <-> pres (hm a) k) /\
      run cf e = Some v /\ hashtable_test hc cf ht k v = Some t /\
      (t = true <-> pres (hm a) k /\
        ((exists y, den e y /\ cont (hm a) k y) \/ (forall y, ~ den e y) /\ (forall y, ~ cont (hm a) k y)))) /\
    (exists s ks, hashtable_keys cf ht = Some (Simple s) /\ hashtable_keyvec ht = Some ks /\
      canonical s (fun k => key_ok k /\ ~ forall d, hashtable_get hc cf ht k d = Some d) /\
      NoDup ks /\ n_keys ht = N.of_nat (length ks) /\
      (forall k, In k ks <-> key_ok k /\ ~ forall d, hashtable_get hc cf ht k d = Some d)) /\
    (exists s, hashtable_values cf ht = Some (Simple s) /\ canonical s (fun y => exists k, cont (hm a) k y)) /\
    (forall o r ht' k d, wf_hop o -> ht_step hc cf ht o = Some (r, ht') -> key_ok k -> ~ htouched o k ->
      hashtable_get hc cf ht' k d = hashtable_get hc cf ht k d).
Proof.
  intros hc cf n ops B C NN L W.
  destruct (C16_hashtable_history_partial hc cf n ops B C NN L W) as (ht0 & rs & ht & a & M & R & H & _ & G).
  assert (RE : hreaches hc cf n ops rs ht).
  { repeat (split; [assumption|]). exists ht0. split; assumption. }
  exists ht0, rs, ht, a. split; [exact M|]. split; [exact R|]. split; [exact H|]. split; [exact G|]. split.
  { intros k e K E. destruct (C16_probe_and_test_partial hc cf n ops rs ht k e B C RE K E) as (a' & b & v & t & H' & P).
    rewrite (hhist_det _ _ _ _ _ H H'). exists b, v, t. exact P. }
  split; [apply (C19_hashtable_keys_partial hc cf n ops rs ht); assumption|]. split.
  { destruct (C19_hashtable_values_partial hc cf n ops rs ht B C RE) as (a' & s & H' & P).
    rewrite (hhist_det _ _ _ _ _ H H'). exists s. exact P. }
  intros o r ht' k d O S K T. apply (C16_other_keys_partial hc cf n ops rs ht o r ht' k d); assumption.
Qed.
Example C79_hashtables_case : 0 < block_size cf1 /\ hcfg_ok h0 /\ Forall wf_hop hops_ex /\
  exists ht0 ht, make_hashtable (-2) = Some ht0 /\
    ht_run h0 cf1 ht0 hops_ex = Some ([1; 1; 1; 1; 1; 1; 0; 7; 1; 1; 1; 0; 0; -1; -1]%Z, ht) /\
    hashtable_get h0 cf1 ht (fx 5) DF = Some (Simple (SChoice true [fx 50; fx 51])).
Proof.
  split; [cbn; lia|]. split; [split; vm_compute; intuition congruence|]. split; [exact ex_hops_wf|].
  eexists _, _. split; [reflexivity|]. split; [vm_compute; reflexivity|]. vm_compute. reflexivity.
Qed.
Print Assumptions C79_hashtables.

(** Schemaps as maps on their slots: for all schemas without duplicates, sorted or not, all
    initial values, and all histories of stores, additions, drops and switching to read-only
    mode, with values as for C77; slots that are not of the schema are refused. *)
Theorem C80_schemaps : forall cf s sorted es ops, 0 < block_size cf -> schema_ok s sorted ->
  Forall okval es -> length es = length s -> Forall wf_sop ops ->
  exists vs rs sm a, run_all cf es = Some vs /\ sch_run cf (make_schemap s sorted (Some vs)) ops = Some (rs, sm) /\
    shist s (s_init s es) ops rs a /\ schema sm = s /\
    (forall k d, exists v, schemap_get cf sm k d = Some v /\
      (In k s -> exists c, v = Simple c /\ canonical c (sc a k)) /\ (~ In k s -> v = d)) /\
    (forall k e, okval e -> exists v b, run cf e = Some v /\ schemap_test cf sm k v = Some b /\
      (b = true <-> In k s /\ ((exists y, den e y /\ sc a k y) \/ (forall y, ~ den e y) /\ (forall y, ~ sc a k y)))) /\
    (forall k e, okslot k -> okval e -> ~ In k s ->
      sch_step cf sm (SStore k e) = Some ((-1)%Z, sm) /\
      forall sh, (exists y, den e y) -> sch_step cf sm (SAdd sh k e) = Some ((-1)%Z, sm)).
Proof.
  intros cf s sorted es ops B S O L W.
  destruct (C15_schemap_history_partial cf s sorted es ops B S O L W) as (vs & rs & sm & a & V & R & H & E & G & T).
  exists vs, rs, sm, a. repeat (split; [assumption|]).
  intros k e K F N. apply (C15_other_slots_refused cf s sorted es vs ops rs sm k e); assumption.
Qed.
Example C80_schemaps_case : schema_ok schema_ex true /\ Forall wf_sop sops_ex /\
  exists vs rs sm, run_all cf15 (repeat (PVal (fx 0)) 10) = Some vs /\
    sch_run cf15 (make_schemap schema_ex true (Some vs)) sops_ex = Some (rs, sm) /\ rs = [1; 1; -1; 1; 1; 1; 0; 1; -1]%Z.
Proof.
  destruct C15_met as (A & B & vs & rs & sm & C & D & E & _). split; [exact A|]. split; [exact B|].
  exists vs, rs, sm. auto.
Qed.
Print Assumptions C80_schemaps.

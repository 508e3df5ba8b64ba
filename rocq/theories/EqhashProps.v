(** * C17: hashtables keyed by identity.

    The specification is that of C16: [hhist] and the abstract map. *)
From Coq Require Import Lia Permutation Sorting.Sorted List.
From Verif Require Import ValueModel ValueProofs SortModel SortProofs ChoicesModel SlotmapModel
  ChoicesProofs ChoicesProofs2 ChoicesProofs3 ChoicesProps TableProofs SlotmapProofs SlotmapProps
  HashtableModel HashtableProofs HashtableProps EqhashModel EqhashProofs.
Import ListNotations.

(** ** Operations *)
Inductive eop := EStore (k : val) (e : prog) | EDrop (k : val) (e : prog) | EDropAll (k : val).
Definition eq_step (ec : ecfg) (cf : config) (ht : hashtable) (o : eop) : option (Z * hashtable) :=
  match o with
  | EStore k e => do v <- run cf e; eq_store ec cf ht k v
  | EDrop k e => do v <- run cf e; eq_drop ec cf ht k v
  | EDropAll k => eq_drop ec cf ht k (Simple (SVal KVOID))
  end.
Fixpoint eq_run (ec : ecfg) (cf : config) (ht : hashtable) (ops : list eop) : option (list Z * hashtable) :=
  match ops with
  | [] => Some ([], ht)
  | o :: ops =>
    do r <- eq_step ec cf ht o; let (c, ht') := (r : Z * hashtable) in
    do rs <- eq_run ec cf ht' ops; let (cs, ht'') := (rs : list Z * hashtable) in
    Some (c :: cs, ht'')
  end.
(** The same operation in the specification of C16. *)
Definition hop_of (o : eop) : hop :=
  match o with EStore k e => HStore k e | EDrop k e => HDrop k e | EDropAll k => HDropAll k end.
Definition ekey (o : eop) : val := match o with EStore k _ | EDrop k _ | EDropAll k => k end.
Definition evalue (o : eop) : Prop := match o with EStore _ e | EDrop _ e => okval e | EDropAll _ => True end.

(** The keys: words, admissible as keys, and LISP_EQUAL only to themselves. *)
Record universe (ec : ecfg) (U : val -> Prop) : Prop := {
  u_word : forall k, U k -> exists w, k = VAtom w;
  u_key : forall k, U k -> key_ok k;
  u_apart : forall a b, U a -> U b -> wequal ec a b = true -> a = b;
}.
(** Along the run no bucket has more than three keys and, unless all keys are atomic (and
    hash_lisp agrees with hash_ptr on them, as it does), the table has room. *)
Fixpoint calm (ec : ecfg) (cf : config) (U : val -> Prop) (ht : hashtable) (ops : list eop) : Prop :=
  small ht /\
  match ops with
  | [] => True
  | o :: ops =>
    (atoms ec U \/ roomy ec ht) /\
    match eq_step ec cf ht o with Some (_, ht') => calm ec cf U ht' ops | None => True end
  end.

Section Run.
Variable ec : ecfg.
Variable cf : config.
Variable U : val -> Prop.
Hypothesis Hcf : cfg_ok cf.
Hypothesis Hsz : hcfg_ok (eh ec).
Hypothesis HU : universe ec U.
Notation hc := (eh ec).

Lemma sim_inU ht a : hsim hc ht a -> (forall k, pres (hm a) k -> U k) -> inU U (buckets ht).
Proof.
  intros [M _] Hp [k v] He. apply Hp. apply (r_pres _ _ (ho_R _ _ _ M)). eapply keys_in; eauto.
Qed.
Lemma step_eq ht o : inU U (buckets ht) -> U (ekey o) -> small ht -> atoms ec U \/ roomy ec ht ->
  eq_step ec cf ht o = ht_step hc cf ht (hop_of o).
Proof.
  intros Hi Hk Hs Hr. destruct HU as [W K A]. destruct o as [k e|k e|k]; cbn [eq_step ht_step hop_of ekey] in *.
  - destruct (run cf e); auto. now apply (store_eq ec cf U).
  - destruct (run cf e); auto. now apply (drop_eq ec cf U).
  - now apply (drop_eq ec cf U).
Qed.
Lemma step_pres a o r a' : hstep a (hop_of o) r a' -> U (ekey o) -> (forall k, pres (hm a) k -> U k) ->
  forall k, pres (hm a') k -> U k.
Proof.
  intros H Hk Hp. destruct o as [k e|k e|k]; cbn [hop_of hstep ekey] in *; destruct (emptyp k);
    try (destruct H as [_ ->]; exact Hp).
  - destruct (hro a); [destruct H as [_ ->]; exact Hp|]. destruct H as [_ ->]. intros x Hx. cbn in Hx.
    destruct Hx as [->|Hx]; auto.
  - destruct H as [(_ & _ & _ & ->)|(_ & _ & ->)]; auto. intros x [Hx _]; auto.
  - destruct H as [(_ & _ & _ & ->)|(_ & _ & ->)]; auto. intros x [Hx _]; auto.
Qed.
Lemma run_sim_eq ops : Forall (fun o => U (ekey o) /\ evalue o) ops -> forall ht a, hsim hc ht a ->
  (forall k, pres (hm a) k -> U k) -> (n_keys ht + N.of_nat (length ops) <= 2 ^ 28)%N -> calm ec cf U ht ops ->
  exists rs ht' a', eq_run ec cf ht ops = Some (rs, ht') /\ hhist a (map hop_of ops) rs a' /\ hsim hc ht' a' /\
    (forall k, pres (hm a') k -> U k) /\ small ht'.
Proof.
  induction 1 as [|o ops [Hk Hv] _ IH]; intros ht a HS Hp Hb Hc; cbn [eq_run map calm] in *.
  - exists [], ht, a. split; auto. split; [constructor|]. split; auto. split; auto. tauto.
  - destruct Hc as (Hs & Hr & Hc). cbn [length] in Hb.
    rewrite (step_eq ht o (sim_inU _ _ HS Hp) Hk Hs Hr) in *.
    assert (Hw : wf_hop (hop_of o)).
    { pose proof (u_key _ _ HU _ Hk) as Ko. destruct o; cbn in *; [split; [right|]|split; [right|]|right]; auto. }
    destruct (hstep_sim hc cf Hcf Hsz ht a (hop_of o) HS Hw) as (r & ht1 & a1 & E & A & S1 & _ & L); [lia|].
    rewrite E in *. destruct (IH ht1 a1 S1 (step_pres _ _ _ _ A Hk Hp)) as (rs & ht2 & a2 & -> & A2 & S2 & P2 & Sm); [lia|auto|].
    exists (r :: rs), ht2, a2. split; auto. split; [econstructor; eauto|]. auto.
Qed.
End Run.

(** ** C17 *)
(** As long as no bucket gets a fourth key, an identity-keyed table is a map on any set
    of keys that are pairwise not LISP_EQUAL; with pointers among the keys, as long as the
    table is not resized either.  What is missing is refuted below. *)
Theorem C17_few_collisions_partial : forall ec cf n ht0 ops U, 0 < block_size cf -> hcfg_ok (eh ec) ->
  universe ec U -> make_hashtable n = Some ht0 -> (N.of_nat (length ops) < 2 ^ 28)%N ->
  Forall (fun o => U (ekey o) /\ evalue o) ops -> calm ec cf U ht0 ops ->
  exists rs ht a, eq_run ec cf ht0 ops = Some (rs, ht) /\ hhist h_init (map hop_of ops) rs a /\
    (exists ks, NoDup ks /\ (forall k, In k ks <-> pres (hm a) k) /\ n_keys ht = N.of_nat (length ks)) /\
    forall k d, U k -> exists v, eq_get ec cf ht k d = Some v /\
      (pres (hm a) k -> exists s, v = Simple s /\ canonical s (cont (hm a) k)) /\
      (~ pres (hm a) k -> v = d).
Proof.
  intros ec cf n ht0 ops U Hcf Hsz HU E0 Hl Hw Hc. destruct (hsim_init (eh ec) n ht0 E0) as [S0 N0].
  destruct (run_sim_eq ec cf U Hcf Hsz HU ops Hw ht0 h_init S0) as (rs & ht & a & E & A & S1 & P & Sm); auto; [intros k []|lia|].
  exists rs, ht, a. split; auto. split; auto. pose proof S1 as [M _]. split.
  - exists (keys_of (concat (buckets ht))). split; [apply (r_nodup _ _ (ho_R _ _ _ M))|].
    split; [intros k; now rewrite (r_pres _ _ (ho_R _ _ _ M))|]. rewrite keys_len. apply (ho_count _ _ _ M).
  - intros k d Hk. destruct HU as [W K Ap].
    rewrite (get_eq ec cf U W Ap ht k d Hk (sim_inU ec U ht a S1 P) Sm).
    destruct (h_get_spec (eh ec) cf Hcf ht (hm a) M k d (K k Hk)) as (v & Ev & G1 & G2).
    exists v. split; auto. split; auto. intros Hp. destruct (G1 Hp) as (s & -> & Rs). exists s. split; auto.
    now apply represents_canonical.
Qed.

(** ** Refuted *)
(** hash_mult, include/kno/hash.h:23-26; hash_ptr (tables.c:1710-1717) on fixnums and
    pointers; hash_lisp on fixnums and one-byte strings (1678, 1742-1744, 1656-1659). *)
Definition hash_mult (x y : N) : N := ((x * y) mod 2 ^ 32 mod 256001281)%N.
Definition ptr_hash (k : val) : N :=
  if pointer k then hash_mult (hash_mult (word k / 4 mod 2 ^ 32) 310000023) 420000017
  else hash_mult (word k mod 2 ^ 32) 220000073.
Definition lisp_hash (k : val) : N :=
  match k with VStr [c] => (c mod 256001281)%N | _ => ptr_hash k end.
(** Every address below 2^16 holds the string a. *)
Definition ec0 : ecfg :=
  {| eh := {| hash := ptr_hash; init_size := 73; load_num := 6; load_den := 5 |};
     deref := fun w => if (w <? 65536)%N then VStr [97%N] else VStr [98%N; w]; lhash := lisp_hash |}.
Definition st (n : N) : eop := EStore (fx n) (PVal (fx (n + 1000))).
Definition eq53 (ops : list eop) : option (list Z * hashtable) :=
  do ht <- make_hashtable 1; eq_run ec0 cf1 ht ops.
(** With the real hash and the smallest size the table has, the keys 5, 29, 43 and 67
    share a bucket: looking up 67 finds the value of 29, and the absent key 102 is found. *)
Theorem C17_four_keys_refuted : exists ht, eq53 [st 5; st 29; st 43; st 67] = Some ([1; 1; 1; 1]%Z, ht) /\
  n_buckets ht = 53%N /\
  eq_get ec0 cf1 ht (fx 67) EMPTYV = Some (Simple (SVal (fx 1029))) /\
  eq_get ec0 cf1 ht (fx 102) EMPTYV = Some (Simple (SVal (fx 1029))).
Proof. eexists. split; [vm_compute; reflexivity|]. split; [reflexivity|]. split; vm_compute; reflexivity. Qed.
(** Dropping the absent key 102 removes 29. *)
Theorem C17_four_keys_drop_refuted : exists ht, eq53 [st 5; st 29; st 43; st 67; EDropAll (fx 102)] = Some ([1; 1; 1; 1; 1]%Z, ht) /\
  eq_get ec0 cf1 ht (fx 29) EMPTYV = Some EMPTYV.
Proof. eexists. split; [vm_compute; reflexivity|]. vm_compute. reflexivity. Qed.
(** Two different strings with the same text, at addresses whose hashes fall into the same
    bucket: the second, never stored, is found. *)
Theorem C17_equal_keys_refuted : exists ht,
  eq53 [EStore (VAtom 4096) (PVal (fx 1))] = Some ([1]%Z, ht) /\ VAtom 4096 <> VAtom 4720 /\
  eq_get ec0 cf1 ht (VAtom 4720) EMPTYV = Some (Simple (SVal (fx 1))).
Proof. eexists. split; [vm_compute; reflexivity|]. split; [discriminate|]. vm_compute. reflexivity. Qed.
(** The 45th key makes the table grow; the entries are put in again by structure: a string
    stored before is no longer found, and of two strings with the same text one is gone
    although both are counted. *)
Definition fill (n : nat) : list eop := map (fun i => st (N.of_nat i)) (seq 200 n).
Theorem C17_resize_refuted : exists rs ht,
  eq53 (EStore (VAtom 4096) (PVal (fx 1)) :: fill 44) = Some (rs, ht) /\ n_buckets ht = 97%N /\
  eq_get ec0 cf1 ht (VAtom 4096) EMPTYV = Some EMPTYV.
Proof. eexists _, _. split; [vm_compute; reflexivity|]. split; [reflexivity|]. vm_compute. reflexivity. Qed.
Theorem C17_resize_merges_refuted : exists rs ht,
  eq53 (EStore (VAtom 4096) (PVal (fx 1)) :: EStore (VAtom 4720) (PVal (fx 2)) :: fill 43) = Some (rs, ht) /\
  n_keys ht = 45%N /\ length (concat (buckets ht)) = 44.
Proof. eexists _, _. split; [vm_compute; reflexivity|]. split; reflexivity. Qed.

(** ** Cases that meet the hypotheses *)
(** The real hash agrees on atoms. *)
Lemma ec0_cfg : hcfg_ok (eh ec0).
Proof. repeat split. discriminate. Qed.
Lemma fx_key n : key_ok (fx n).
Proof. split; [apply fx_elt|apply fx_clean]. Qed.
Lemma fx_not_pointer n : pointer (fx n) = false.
Proof.
  unfold pointer, fx. rewrite N.add_comm, N.mul_comm, N.mod_add by discriminate. reflexivity.
Qed.
Definition fixnums (k : val) : Prop := exists n, k = fx n.
Example ex_fixnums : universe ec0 fixnums /\ atoms ec0 fixnums.
Proof.
  split; [constructor|].
  - intros k [n ->]. unfold fx. eauto.
  - intros k [n ->]. apply fx_key.
  - intros a b [n ->] [m ->]. unfold wequal. rewrite fx_not_pointer. cbn [andb]. rewrite Bool.orb_false_r.
    unfold same, fx. cbn [word]. intros E. apply N.eqb_eq in E. now rewrite E.
  - intros k [n ->]. split; [apply fx_not_pointer|reflexivity].
Qed.
(** A history that grows the table from 53 to 97 buckets: decided by running it. *)
Definition smallb (ht : hashtable) : bool := forallb (fun b => length b <=? 3) (buckets ht).
Fixpoint calmb (ec : ecfg) (cf : config) (ht : hashtable) (ops : list eop) : bool :=
  smallb ht &&
  match ops with
  | [] => true
  | o :: ops => match eq_step ec cf ht o with Some (_, ht') => calmb ec cf ht' ops | None => true end
  end.
Lemma smallb_ok ht : smallb ht = true -> small ht.
Proof. unfold smallb, small. rewrite forallb_forall, Forall_forall. intros H b Hb. now apply Nat.leb_le, H. Qed.
Lemma calmb_ok ec cf U ops : atoms ec U -> forall ht, calmb ec cf ht ops = true -> calm ec cf U ht ops.
Proof.
  intros A. induction ops as [|o ops IH]; intros ht H; cbn in *; apply andb_prop in H as [H1 H2].
  - split; auto. now apply smallb_ok.
  - split; [now apply smallb_ok|]. split; auto. destruct (eq_step ec cf ht o) as [[r ht']|]; auto.
Qed.
Definition grows : list eop := fill 50 ++ [EDrop (fx 210) (PVal (fx 1210)); EDropAll (fx 211)].
Example ex_grows : exists rs ht ht0, make_hashtable 1 = Some ht0 /\ eq_run ec0 cf1 ht0 grows = Some (rs, ht) /\
  n_buckets ht = 97%N /\ n_keys ht = 48%N /\ calm ec0 cf1 fixnums ht0 grows.
Proof.
  eexists _, _, _. split; [vm_compute; reflexivity|]. split; [vm_compute; reflexivity|]. split; [reflexivity|].
  split; [reflexivity|]. apply calmb_ok; [apply ex_fixnums|]. vm_compute. reflexivity.
Qed.
Example ex_grows_ok : Forall (fun o => fixnums (ekey o) /\ evalue o) grows.
Proof.
  assert (V : forall n, okval (PVal (fx n))).
  { intros n. split; [apply fx_elt|]. intros y Hy. cbn in Hy. subst. apply fx_clean. }
  unfold grows. apply Forall_app. split.
  - apply Forall_forall. intros o Ho. apply in_map_iff in Ho as (i & <- & _). split; [eexists; reflexivity|]. apply V.
  - apply Forall_cons; [split; [eexists; reflexivity|apply V]|].
    apply Forall_cons; [split; [eexists; reflexivity|exact I]|]. apply Forall_nil.
Qed.
(** Pointers: two different strings in a table with room. *)
Definition strings (k : val) : Prop := k = VAtom 4096 \/ k = VAtom 65536 \/ k = VAtom 65600.
Example ex_strings : universe ec0 strings /\
  exists ht0, make_hashtable 1 = Some ht0 /\
    calm ec0 cf1 strings ht0 [EStore (VAtom 4096) (PVal (fx 1)); EStore (VAtom 65536) (PVal (fx 2));
      EStore (VAtom 65600) (PVal (fx 3)); EDropAll (VAtom 4096)].
Proof.
  split; [constructor|].
  - intros k [->|[->| ->]]; eauto.
  - intros k [->|[->| ->]]; (split; [split; [split; reflexivity|repeat split; discriminate]|reflexivity]).
  - intros a b [->|[->| ->]] [->|[->| ->]]; vm_compute; auto; discriminate.
  - eexists. split; [vm_compute; reflexivity|].
    assert (G : forall ht, smallb ht = true -> (match buckets ht with [] => false | _ => true end &&
      (6 * (n_keys ht + 1) <=? 5 * n_buckets ht)%N = true) -> small ht /\ roomy ec0 ht).
    { intros ht A B. apply andb_prop in B as [B1 B2]. split; [now apply smallb_ok|]. split; [intros E; now rewrite E in B1|].
      now apply N.leb_le. }
    cbn [calm].
    repeat match goal with
    | |- small ?h /\ ((_ \/ roomy _ ?h) /\ _) =>
        let Q := fresh in assert (Q : small h /\ roomy ec0 h) by (apply G; vm_compute; reflexivity);
        split; [exact (proj1 Q)|]; split; [right; exact (proj2 Q)|]; clear Q
    | |- match ?x with _ => _ end => let v := eval vm_compute in x in change x with v; cbv beta iota
    end.
    split; [|exact I]. apply smallb_ok. vm_compute. reflexivity.
Qed.

Print Assumptions C17_few_collisions_partial.
Print Assumptions C17_four_keys_refuted.
Print Assumptions C17_four_keys_drop_refuted.
Print Assumptions C17_equal_keys_refuted.
Print Assumptions C17_resize_refuted.
Print Assumptions C17_resize_merges_refuted.

(** * C18 (and C19 for hash sets): a hash set is a set.

    The specification is the abstract set [after ops], a predicate computed from the
    operations alone.  Everything is quantified over the hash function, the policy of
    growth and the initial size. *)
From Coq Require Import Lia Permutation Sorting.Sorted List ZArith.
From Verif Require Import ValueModel ValueProofs SortModel SortProofs ChoicesModel SlotmapModel HashtableModel HashsetModel
  ChoicesProofs ChoicesProofs2 ChoicesProofs3 ChoicesProps TableProofs SlotmapProofs SlotmapProps HashtableProofs HashsetProofs.
Import ListNotations.
Local Open Scope Z_scope.

(** ** Operations *)
Inductive sop :=
| SLookup (k : val)               (* kno_hashset_get *)
| SAdd (k : val)                  (* kno_hashset_mod(h,k,1) *)
| SAddAll (e : prog) (upto : Z)   (* kno_hashset_add of a value *)
| SEnsure (k : val)               (* kno_hashset_get, then kno_hashset_mod(h,k,1) *)
| SRemove (k : val)               (* if (kno_hashset_get(h,k)) kno_hashset_mod(h,k,0) *)
| SGrow (n : N)                   (* kno_grow_hashset *)
| SReset.                         (* kno_reset_hashset *)
Definition b2z (b : bool) : Z := if b then 1 else 0.
Definition ret (r : option (bool * hashset)) : option (Z * hashset) :=
  do r' <- r; let (b, h) := (r' : bool * hashset) in Some (b2z b, h).
Definition set_step (sc : scfg) (cf : config) (h : hashset) (o : sop) : option (Z * hashset) :=
  match o with
  | SLookup k => ret (hashset_get sc cf h k)
  | SAdd k => ret (hashset_mod sc cf h k true)
  | SAddAll e upto => do v <- run cf e; hashset_add sc cf h v upto
  | SEnsure k =>
    do r <- hashset_get sc cf h k; let (_, h1) := (r : bool * hashset) in ret (hashset_mod sc cf h1 k true)
  | SRemove k =>
    do r <- hashset_get sc cf h k; let (b, h1) := (r : bool * hashset) in
    if b then ret (hashset_mod sc cf h1 k false) else Some (0, h1)
  | SGrow n => do h' <- grow_hashset sc cf h n; Some (Z.of_N n, h')
  | SReset => Some (reset_hashset h)
  end.
Fixpoint set_run (sc : scfg) (cf : config) (h : hashset) (ops : list sop) : option (list Z * hashset) :=
  match ops with
  | [] => Some ([], h)
  | o :: ops =>
    do r <- set_step sc cf h o; let (z, h1) := (r : Z * hashset) in
    do rs <- set_run sc cf h1 ops; let (zs, h2) := (rs : list Z * hashset) in
    Some (z :: zs, h2)
  end.

(** ** Specification *)
Definition set_after (P : val -> Prop) (o : sop) : val -> Prop :=
  match o with
  | SAdd k | SEnsure k => fun x => P x \/ x = k
  | SAddAll e _ => fun x => P x \/ den e x
  | SRemove k => fun x => P x /\ x <> k
  | SReset => fun _ => False
  | SLookup _ | SGrow _ => P
  end.
Definition after (ops : list sop) : val -> Prop := fold_left set_after ops (fun _ => False).
(** The returned values. *)
Definition truth (r : Z) (A : Prop) : Prop := (r = 1 /\ A) \/ (r = 0 /\ ~ A).
Definition ret_ok (P : val -> Prop) (o : sop) (r : Z) : Prop :=
  match o with
  | SLookup k | SRemove k => truth r (P k)
  | SEnsure k => truth r (~ P k)
  | SAdd k => (r = 0 \/ r = 1) /\ (~ P k -> r = 1)
  | SAddAll e _ => 0 <= r
  | SGrow n => r = Z.of_N n
  | SReset => 0 <= r
  end.
Fixpoint rets_ok (P : val -> Prop) (ops : list sop) (rs : list Z) : Prop :=
  match ops, rs with
  | [], [] => True
  | o :: ops, r :: rs => ret_ok P o r /\ rets_ok (set_after P o) ops rs
  | _, _ => False
  end.
(** Histories in which the adding operations without a preceding lookup only add what is
    not there. *)
Definition fresh_op (P : val -> Prop) (o : sop) : Prop :=
  match o with SAdd k => ~ P k | SAddAll e _ => forall x, den e x -> ~ P x | _ => True end.
Fixpoint fresh_ops (P : val -> Prop) (ops : list sop) : Prop :=
  match ops with [] => True | o :: ops => fresh_op P o /\ fresh_ops (set_after P o) ops end.
Definition wf_sop (o : sop) : Prop :=
  match o with
  | SLookup k | SAdd k | SEnsure k | SRemove k => elt_ok k
  | SAddAll e _ => wf e
  | SGrow n => (0 < n)%N
  | SReset => True
  end.
(** The number of additions an operation makes. *)
Definition cost (cf : config) (o : sop) : Z :=
  match o with
  | SAdd _ | SEnsure _ => 1
  | SAddAll e _ =>
    match (do v <- run cf e; content_elts cf v) with Some l => Z.of_nat (length l) | None => 0 end
  | _ => 0
  end.
Fixpoint total (cf : config) (ops : list sop) : Z :=
  match ops with [] => 0 | o :: ops => cost cf o + total cf ops end.
(** Initial size in the table of sizes; the growth target for up to 2^28 elements too. *)
Definition scfg_ok (sc : scfg) : Prop :=
  (start_size sc < 1610612741)%N /\ forall n, 0 <= n <= 2 ^ 28 -> (grow_target sc n < 1610612741)%N.
(** The source: load factor 1.7, initial size 73. *)
Definition std_cfg (hash : val -> N) : scfg :=
  {| shash := hash; start_size := 73;
     grow_when := fun n b => (10 * Z.of_N b <? 17 * n);
     grow_target := fun n => Z.to_N (17 * n / 10);
     grow_need := fun n => Z.to_N ((17 * n + 9) / 10) |}.
Example ex_std_cfg hash : scfg_ok (std_cfg hash).
Proof.
  split; [reflexivity|]. intros n Hn. cbn [std_cfg grow_target].
  assert (17 * n / 10 < 1610612741) by (apply Z.div_lt_upper_bound; lia). lia.
Qed.

Section Sim.
Variable sc : scfg.
Variable cf : config.
Hypothesis Hcf : cfg_ok cf.
Hypothesis Hsc : scfg_ok sc.
Definition ssim (h : hashset) (P : val -> Prop) (extra : Z) : Prop :=
  hs_rep sc h P /\ counts (n_elts h) P extra /\ 0 <= extra.
Lemma ssim_zero h P e : ssim h P e -> n_elts h = 0 -> forall x, ~ P x.
Proof. intros (_ & C & He) E. rewrite E in C. now apply (counts_zero P e). Qed.
Lemma ssim_pos h P e : ssim h P e -> 0 <= n_elts h.
Proof. intros (_ & (ks & _ & _ & C) & He). lia. Qed.
Lemma lookup_sim h P e k : ssim h P e -> elt_ok k ->
  exists b h', hashset_get sc cf h k = Some (b, h') /\ truth (b2z b) (P k) /\ ssim h' P e /\ n_elts h' = n_elts h /\
    (P k -> settled sc h' k).
Proof.
  intros HS Hk. pose proof HS as (H & C & He). destruct (Z.eq_dec (n_elts h) 0) as [E|E].
  - exists false, h. unfold hashset_get. rewrite E. split; [reflexivity|]. pose proof (ssim_zero _ _ _ HS E k).
    split; [right; split; auto|]. split; auto. split; auto. tauto.
  - destruct (get_spec sc cf Hcf h P k H Hk E) as (b & h' & -> & Hb & H' & N' & S'). exists b, h'. split; auto.
    split; [destruct b; [left|right]; split; auto; [tauto|intros Hp; apply Hb in Hp; discriminate]|].
    split; [split; auto; rewrite N'; auto|]. split; auto.
Qed.
Lemma add_sim h P e k : ssim h P e -> elt_ok k -> n_elts h < 2 ^ 28 ->
  exists b h' e', hashset_mod sc cf h k true = Some (b, h') /\ ssim h' (fun x => P x \/ x = k) e' /\
    n_elts h' <= n_elts h + 1 /\ (~ P k -> b = true /\ e' = e) /\ (settled sc h k -> P k -> b = false /\ e' = e).
Proof.
  intros HS Hk Hb. pose proof HS as (H & C & He). pose proof (ssim_pos _ _ _ HS).
  destruct (mod_add_spec sc cf Hcf h P k H Hk) as (b & h' & -> & H' & N' & A1 & A2). { apply Hsc. lia. }
  destruct (counts_dec _ _ _ k C) as [D|D].
  - exists b, h', (e + b2z b). split; auto. split.
    + split; auto. split; [rewrite N'; now apply counts_old|destruct b; simpl; lia].
    + split; [destruct b; lia|]. split; [tauto|]. intros Hs _. rewrite (A2 D Hs). simpl. lia.
  - rewrite (A1 D) in *. exists true, h', e. split; auto. split; [|split; [lia|tauto]].
    split; auto. split; auto. rewrite N'. now apply counts_new.
Qed.
Lemma step_sim h P e o : ssim h P e -> wf_sop o -> n_elts h + cost cf o <= 2 ^ 28 ->
  exists r h' e', set_step sc cf h o = Some (r, h') /\ ret_ok P o r /\ ssim h' (set_after P o) e' /\
    n_elts h' <= n_elts h + cost cf o /\ (fresh_op P o -> e = 0 -> e' = 0).
Proof.
  intros HS Hw Hb. pose proof HS as (H & C & He). pose proof (ssim_pos _ _ _ HS) as Hpos.
  destruct o as [k|k|p upto|k|k|n|]; cbn [wf_sop] in Hw; cbn [set_step ret_ok set_after fresh_op]; cbn [cost] in Hb |- *.
  - destruct (lookup_sim h P e k HS Hw) as (b & h' & -> & T & HS' & N' & _). exists (b2z b), h', e.
    split; auto. split; auto. split; auto. split; [lia|auto].
  - destruct (add_sim h P e k HS Hw) as (b & h' & e' & -> & HS' & N' & F & _); [lia|]. exists (b2z b), h', e'.
    split; auto. split; [split; [destruct b; auto|intros D; now rewrite (proj1 (F D))]|]. split; auto. split; auto.
    intros D ->. now apply F.
  - destruct (run_good cf p Hcf Hw) as (v & Ev & V1 & V2 & V3). rewrite Ev in *. 
    destruct (content_spec cf Hcf v V1) as (l & El & Fl & Nl & Ml). rewrite El in *. unfold hashset_add.
    assert (Gen : forall v', v' = v ->
      exists r h' e', (do h0 <- (if (s_buckets h <? grow_need sc (upto + n_elts h))%N then grow_hashset sc cf h (grow_need sc (upto + n_elts h)) else Some h);
         do l0 <- content_elts cf v'; mod_all sc cf h0 l0 0) = Some (r, h') /\ 0 <= r /\ ssim h' (fun x => P x \/ den p x) e' /\
         n_elts h' <= n_elts h + Z.of_nat (length l) /\ ((forall x, den p x -> ~ P x) -> e = 0 -> e' = 0)).
    { intros v' ->. rewrite El.
      assert (exists h0, (if (s_buckets h <? grow_need sc (upto + n_elts h))%N then grow_hashset sc cf h (grow_need sc (upto + n_elts h)) else Some h) = Some h0
               /\ hs_rep sc h0 P /\ n_elts h0 = n_elts h) as (h0 & -> & H0 & N0).
      { destruct (N.ltb_spec (s_buckets h) (grow_need sc (upto + n_elts h))); [|eauto].
        apply grow_spec; auto. intros E. lia. }
      rewrite <- N0 in C. destruct (mod_all_spec sc cf Hcf l Fl Nl h0 P e 0 H0 C) as (r & h' & e' & E' & H' & N' & C' & Le & B & Fr).
      { intros n Hn. apply Hsc. lia. }
      assert (X : forall x, P x \/ In x l <-> P x \/ den p x) by (intros x; rewrite Ml, V3; tauto).
      exists r, h', e'. rewrite E'. split; [do 2 f_equal; lia|]. split; [lia|].
      split; [split; [now apply (rep_ext sc h' _ _ X)|]; split; [now apply (counts_ext _ _ _ _ X)|lia]|]. split; [lia|].
      intros Hf ->. apply Fr. intros x Hx. apply Hf. rewrite <- V3. now apply Ml. }
    destruct v as [[k|a c]|pc]; [|now apply Gen|now apply Gen].
    destruct V1 as [->|Hk].
    + assert (l = []) as -> by (vm_compute in El; congruence).
      assert (Np : forall x, ~ den p x) by (intros x Hx; apply V3 in Hx; exact Hx).
      assert (X : forall x, P x <-> P x \/ den p x) by (intros x; split; auto; intros [?|Hx]; auto; now apply Np in Hx).
      exists 0, h, e. split; [reflexivity|]. split; [lia|]. split; [split; [now apply (rep_ext sc h _ _ X)|]; split; [now apply (counts_ext _ _ _ _ X)|lia]|].
      split; [simpl; lia|auto].
    + rewrite elt_nonempty by auto. assert (l = [k]) as ->.
      { cbn in El. rewrite elt_nonempty in El by auto. congruence. }
      destruct (add_sim h P e k HS Hk) as (b & h' & e' & -> & (A1 & A2 & A3) & N' & F & _); [simpl in Hb; lia|].
      assert (X : forall x, P x \/ x = k <-> P x \/ den p x).
      { intros x. rewrite <- V3. cbn [lelts]. rewrite selts_elt by auto. simpl. assert (k = x <-> x = k) by (split; congruence). tauto. }
      eexists _, h', e'. split; [reflexivity|]. split; [destruct b; lia|].
      split; [split; [now apply (rep_ext sc h' _ _ X)|]; split; [now apply (counts_ext _ _ _ _ X)|lia]|].
      split; [simpl; lia|]. intros Hf ->. apply F. apply Hf. apply V3. cbn [lelts]. rewrite selts_elt by auto. now left.
  - destruct (lookup_sim h P e k HS Hw) as (b0 & h1 & -> & T & HS1 & N1 & S1).
    destruct (add_sim h1 P e k HS1 Hw) as (b & h' & e' & -> & HS' & N' & F & G); [lia|]. exists (b2z b), h', e'.
    split; auto. destruct (counts_dec _ _ _ k C) as [D|D].
    + destruct (G (S1 D) D) as [-> ->]. split; [right; split; auto|]. split; auto. split; [lia|auto].
    + destruct (F D) as [-> ->]. split; [left; split; auto|]. split; auto. split; [lia|auto].
  - destruct (lookup_sim h P e k HS Hw) as (b & h1 & -> & T & (H1 & C1 & _) & N1 & S1). destruct b.
    + destruct T as [[_ D]|[T _]]; [|discriminate T].
      destruct (mod_drop_spec sc cf Hcf h1 P k H1 Hw D (S1 D)) as (h' & -> & H' & N'). exists 1, h', e.
      split; auto. split; [left; auto|]. split; [split; auto; split; auto; rewrite N'; now apply counts_drop|]. split; [lia|auto].
    + destruct T as [[T _]|[_ D]]; [discriminate T|]. exists 0, h1, e. split; auto. split; [right; auto|].
      assert (X : forall x, P x <-> P x /\ x <> k) by (intros x; split; [intros Hx; split; auto; intros ->; auto|tauto]).
      split; [split; [now apply (rep_ext sc h1 _ _ X)|]; split; [now apply (counts_ext _ _ _ _ X)|lia]|]. split; [lia|auto].
  - destruct (grow_spec sc cf Hcf h P n H) as (h' & -> & H' & N'). { intros E. lia. }
    exists (Z.of_N n), h', e. split; auto. split; auto. split; [split; auto; split; auto; rewrite N'; auto|]. split; [lia|auto].
  - unfold reset_hashset. destruct (Z.eqb_spec (n_elts h) 0) as [E|E].
    + exists 0, h, e. split; auto. split; [lia|]. pose proof (ssim_zero _ _ _ HS E) as Z0.
      assert (X : forall x, P x <-> False) by (intros x; split; [apply Z0|tauto]).
      split; [split; [now apply (rep_ext sc h _ _ X)|]; split; [now apply (counts_ext _ _ _ _ X)|lia]|]. split; [lia|auto].
    + eexists (n_elts h), _, 0. split; [reflexivity|]. split; [lia|]. split.
      * split; [|split; [exists []; split; [constructor|]; split; [intros x; split; intros []|reflexivity]|lia]].
        pose proof (rep_pos _ _ _ H) as Ne. assert (0 < length (slots h))%nat by (destruct (slots h); [tauto|simpl; lia]).
        pose proof (rep_new sc (N.of_nat (length (slots h))) (fun _ => False) ltac:(lia) (fun _ f => f) 0) as R.
        now rewrite Nat2N.id in R.
      * split; [cbn; lia|auto].
Qed.
Lemma run_sim ops : Forall wf_sop ops -> forall h P e, ssim h P e -> n_elts h + total cf ops <= 2 ^ 28 ->
  exists rs h' e', set_run sc cf h ops = Some (rs, h') /\ rets_ok P ops rs /\ ssim h' (fold_left set_after ops P) e' /\
    (fresh_ops P ops -> e = 0 -> e' = 0).
Proof.
  induction 1 as [|o ops Ho Hops IH]; intros h P e HS Hb; cbn [set_run].
  - exists [], h, e. split; auto. split; [exact I|]. split; auto.
  - cbn [total] in Hb.
    assert (T : 0 <= total cf ops).
    { clear. induction ops as [|o ops IH]; cbn [total]; [lia|]. assert (0 <= cost cf o); [|lia].
      destruct o; cbn [cost]; try lia. destruct (do v <- run cf e; content_elts cf v); lia. }
    destruct (step_sim h P e o HS Ho) as (r & h1 & e1 & -> & R1 & HS1 & L1 & F1); [lia|].
    destruct (IH h1 _ e1 HS1) as (rs & h2 & e2 & -> & R2 & HS2 & F2); [lia|].
    exists (r :: rs), h2, e2. split; auto. split; [split; auto|]. split; auto. intros [G1 G2] E. auto.
Qed.
(** Reachable sets. *)
Definition sreaches (ops : list sop) (rs : list Z) (h : hashset) : Prop :=
  Forall wf_sop ops /\ total cf ops <= 2 ^ 28 /\
  exists h0, make_hashset sc 0 = Some h0 /\ set_run sc cf h0 ops = Some (rs, h).
Lemma init_sim : exists h0, make_hashset sc 0 = Some h0 /\ ssim h0 (fun _ => False) 0 /\ n_elts h0 = 0.
Proof.
  unfold make_hashset. destruct Hsc as [A _]. destruct (sizes_exist _ A) as [s Es]. rewrite Es. apply sizes_pos in Es.
  eexists. split; [reflexivity|]. split; auto. split; [apply rep_new; [lia|auto]|]. split; [|lia].
  exists []. split; [constructor|]. split; [intros x; split; intros []|reflexivity].
Qed.
Lemma reach_sim ops rs h : sreaches ops rs h ->
  exists e, rets_ok (fun _ => False) ops rs /\ ssim h (after ops) e /\ (fresh_ops (fun _ => False) ops -> e = 0).
Proof.
  intros (Hw & Ht & h0 & E0 & E). destruct init_sim as (h0' & E0' & S0 & N0). rewrite E0 in E0'. injection E0' as <-.
  destruct (run_sim ops Hw h0 _ 0 S0) as (rs' & h' & e & E' & R & S1 & F); [lia|].
  rewrite E in E'. injection E' as <- <-. exists e. split; auto.
Qed.
End Sim.

(** ** C18 *)
(** Every history runs, returns what the abstract set says and leaves a set with exactly
    the members of the abstract set. *)
Theorem C18_membership_partial : forall sc cf ops, (0 < block_size cf)%nat -> scfg_ok sc ->
  Forall wf_sop ops -> total cf ops <= 2 ^ 28 ->
  exists h0 rs h, make_hashset sc 0 = Some h0 /\ set_run sc cf h0 ops = Some (rs, h) /\
    rets_ok (fun _ => False) ops rs /\
    forall k, elt_ok k -> exists b h', hashset_get sc cf h k = Some (b, h') /\ (b = true <-> after ops k).
Proof.
  intros sc cf ops Hcf Hsc Hw Ht. destruct (init_sim sc Hsc) as (h0 & E0 & S0 & N0).
  destruct (run_sim sc cf Hcf Hsc ops Hw h0 _ 0 S0) as (rs & h & e & E & R & S1 & _); [lia|].
  exists h0, rs, h. split; auto. split; auto. split; auto. intros k Hk.
  destruct (lookup_sim sc cf Hcf h _ e k S1 Hk) as (b & h' & Eg & T & _). exists b, h'. split; auto.
  fold (after ops) in T. destruct b, T as [[T A]|[T A]]; try discriminate T; split; auto; try discriminate; tauto.
Qed.
(** The count: never below the number of members, equal to it when nothing was added
    without a lookup while it was already a member. *)
Theorem C18_count_partial : forall sc cf ops rs h, (0 < block_size cf)%nat -> scfg_ok sc -> sreaches sc cf ops rs h ->
  exists ks, NoDup ks /\ (forall k, In k ks <-> after ops k) /\ Z.of_nat (length ks) <= n_elts h /\
    (fresh_ops (fun _ => False) ops -> n_elts h = Z.of_nat (length ks)).
Proof.
  intros sc cf ops rs h Hcf Hsc Hr. destruct (reach_sim sc cf Hcf Hsc ops rs h Hr) as (e & _ & (_ & (ks & N & M & C) & He) & F).
  exists ks. split; auto. split; auto. split; [lia|]. intros Hf. rewrite (F Hf) in C. lia.
Qed.
(** kno_hashset_elts and kno_hashset_vec. *)
Theorem C19_hashset_elts_partial : forall sc cf ops rs h, (0 < block_size cf)%nat -> scfg_ok sc -> sreaches sc cf ops rs h ->
  exists s ks, hashset_elts cf h = Some (Simple s) /\ canonical s (after ops) /\
    hashset_vec cf h = Some (Some ks) /\ NoDup ks /\ forall k, In k ks <-> after ops k.
Proof.
  intros sc cf ops rs h Hcf Hsc Hr. destruct (reach_sim sc cf Hcf Hsc ops rs h Hr) as (e & _ & HS & _).
  pose proof HS as (H & C & He).
  destruct (elts_spec sc cf Hcf h _ H (ssim_zero sc h _ e HS)) as (s & E & Rs).
  destruct (slots_elts_spec sc cf Hcf h _ H) as (l & El & _ & Nl & Ml). unfold hashset_vec.
  destruct (Z.eqb_spec (n_elts h) 0) as [Z0|Z0].
  - exists s, []. split; auto. split; [now apply represents_canonical|]. split; auto. split; [constructor|].
    intros k. pose proof (ssim_zero sc h _ e HS Z0 k). simpl. tauto.
  - exists s, l. split; auto. split; [now apply represents_canonical|].
    split; [|auto]. apply vec_fill_spec; auto. destruct C as (ks & N & M & C).
    assert (length l <= length ks)%nat; [|lia]. apply NoDup_incl_length; auto. intros x Hx. apply M. now apply Ml.
Qed.

(** ** Findings.  All with the standard configuration and a hash that puts everything in
    one bucket. *)
Definition sc0 : scfg := std_cfg (fun _ => 0%N).
Definition cf2 : config := {| small_threshold := 4; big_threshold := 1000; block_size := 16 |}.
Definition members (h : hashset) (ks : list val) : Prop :=
  Forall (fun k => exists h', hashset_get sc0 cf2 h k = Some (true, h')) ks.
Definition set3 (ops : list sop) : option (list Z * hashset) :=
  do h0 <- make_hashset sc0 0; set_run sc0 cf2 h0 ops.
(** Adding a member again counts it again: the test of an accumulator bucket has its
    arguments exchanged. *)
Theorem C18_duplicate_add_refuted : exists h, elt_ok (fx 1) /\ elt_ok (fx 2) /\
  set3 [SAdd (fx 1); SAdd (fx 2); SAdd (fx 1)] = Some ([1; 1; 1], h) /\ n_elts h = 3 /\
  hashset_elts cf2 h = Some (Simple (SChoice true [fx 1; fx 2])).
Proof.
  eexists. split; [apply fx_elt|]. split; [apply fx_elt|]. split; [vm_compute; reflexivity|].
  split; [reflexivity|]. vm_compute. reflexivity.
Qed.
(** Dropping a member of an accumulator bucket does nothing. *)
Theorem C18_drop_collision_refuted : exists h, 
  set3 [SAdd (fx 1); SAdd (fx 2)] = Some ([1; 1], h) /\
  hashset_mod sc0 cf2 h (fx 1) false = Some (false, h) /\ members h [fx 1].
Proof.
  eexists. split; [vm_compute; reflexivity|]. split; [vm_compute; reflexivity|].
  repeat constructor. eexists. vm_compute. reflexivity.
Qed.
(** Dropping what is not a member is reported as done and lowers the count: one member is
    left and the set calls itself empty. *)
Theorem C18_drop_absent_refuted : exists h h', 
  set3 [SAdd (fx 1)] = Some ([1], h) /\ elt_ok (fx 2) /\
  hashset_mod sc0 cf2 h (fx 2) false = Some (true, h') /\ n_elts h' = 0 /\
  hashset_get sc0 cf2 h' (fx 1) = Some (false, h') /\ hashset_elts cf2 h' = Some EMPTYV.
Proof.
  eexists _, _. split; [vm_compute; reflexivity|]. split; [apply fx_elt|]. split; [vm_compute; reflexivity|].
  split; [reflexivity|]. split; vm_compute; reflexivity.
Qed.
(** The same for a bucket that is a choice. *)
Theorem C18_drop_absent_choice_refuted : exists h h', 
  set3 [SAdd (fx 1); SAdd (fx 2); SLookup (fx 1)] = Some ([1; 1; 1], h) /\
  hashset_mod sc0 cf2 h (fx 3) false = Some (true, h') /\ n_elts h' = 1 /\ members h' [fx 1; fx 2].
Proof.
  eexists _, _. split; [vm_compute; reflexivity|]. split; [vm_compute; reflexivity|]. split; [reflexivity|].
  repeat constructor; eexists; vm_compute; reflexivity.
Qed.
(** kno_hashset_intern adds without counting: the interned value is not found. *)
Theorem C18_intern_refuted : exists h0 h, make_hashset sc0 0 = Some h0 /\
  hashset_intern sc0 cf2 h0 (fx 1) = Some (fx 1, h) /\ hashset_get sc0 cf2 h (fx 1) = Some (false, h) /\
  hashset_elts cf2 h = Some EMPTYV.
Proof.
  eexists _, _. split; [vm_compute; reflexivity|]. split; [vm_compute; reflexivity|]. split; vm_compute; reflexivity.
Qed.
(** kno_hashset_merge reports the additions and does not count them. *)
Theorem C18_merge_refuted : exists h0 src h, make_hashset sc0 0 = Some h0 /\
  set3 [SAdd (fx 1); SAdd (fx 2)] = Some ([1; 1], src) /\
  hashset_merge sc0 cf2 h0 src = Some (2, h) /\ n_elts h = 0 /\
  hashset_get sc0 cf2 h (fx 1) = Some (false, h) /\ hashset_elts cf2 h = Some EMPTYV.
Proof.
  eexists _, _, _. split; [vm_compute; reflexivity|]. split; [vm_compute; reflexivity|]. split; [vm_compute; reflexivity|].
  split; [reflexivity|]. split; vm_compute; reflexivity.
Qed.
(** kno_hashset_elts(h,1) empties the buckets and keeps the count. *)
Theorem C18_clean_refuted : exists h r h',
  set3 [SAdd (fx 1)] = Some ([1], h) /\ hashset_elts_clean cf2 h = Some (r, h') /\
  n_elts h' = 1 /\ hashset_elts cf2 h' = Some EMPTYV.
Proof.
  eexists _, _, _. split; [vm_compute; reflexivity|]. split; [vm_compute; reflexivity|]. split; [reflexivity|]. vm_compute. reflexivity.
Qed.
(** A set created by kno_make_hashset starts with whatever count malloc left: with 5 in
    that place the empty set has size 5. *)
Theorem C18_initial_count_refuted : exists h0, make_hashset sc0 5 = Some h0 /\ n_elts h0 = 5 /\
  hashset_elts cf2 h0 = Some EMPTYV.
Proof. eexists. split; [vm_compute; reflexivity|]. split; [reflexivity|]. vm_compute. reflexivity. Qed.

(** ** A concrete history with collisions, growth and removals. *)
Definition sops_ex : list sop :=
  [SAdd (fx 5); SAdd (VStr [98; 99]%N); SEnsure (fx 5); SAddAll (PUnion [PVal (fx 7); PVal (fx 8); PVal (fx 9)]) 3;
   SGrow 11; SLookup (fx 8); SRemove (fx 7); SRemove (fx 7); SEnsure (fx 1); SRemove (fx 5)].
Example ex_sops_wf : Forall wf_sop sops_ex.
Proof.
  assert (S1 : elt_ok (VStr [98; 99]%N)) by (repeat split; discriminate).
  unfold sops_ex. repeat (apply Forall_cons; [cbn [wf_sop]; try apply fx_elt; try exact S1; try reflexivity|]); [|apply Forall_nil].
  cbn. repeat (split; [apply fx_elt|]). exact I.
Qed.
Example ex_sops_run : exists h, set3 sops_ex = Some ([1; 1; 0; 3; 11; 1; 1; 0; 1; 1], h) /\ n_elts h = 4 /\
  hashset_elts cf2 h = Some (Simple (SChoice false [fx 1; fx 8; fx 9; VStr [98; 99]%N])).
Proof. eexists. split; [vm_compute; reflexivity|]. split; [reflexivity|]. vm_compute. reflexivity. Qed.
Example ex_sreaches : exists rs h, sreaches sc0 cf2 sops_ex rs h.
Proof.
  destruct ex_sops_run as (h & E & _). unfold set3 in E. destruct (make_hashset sc0 0) as [h0|] eqn:E0; [|discriminate].
  exists [1; 1; 0; 3; 11; 1; 1; 0; 1; 1], h. split; [apply ex_sops_wf|]. split; [vm_compute; discriminate|]. exists h0. auto.
Qed.
Example ex_sops_fresh : fresh_ops (fun _ => False) sops_ex.
Proof.
  cbn. split; [tauto|]. split; [intros [[]|E]; discriminate E|]. split; [exact I|]. split.
  - intros x Hx. assert (Hx' : x = fx 7 \/ x = fx 8 \/ x = fx 9) by (revert Hx; cbn; firstorder).
    intros [[[[]|E]|E]|E]; subst x; destruct Hx' as [E'|[E'|E']]; discriminate E'.
  - repeat split.
Qed.

Print Assumptions C18_membership_partial.
Print Assumptions C18_count_partial.
Print Assumptions C19_hashset_elts_partial.
Print Assumptions C18_duplicate_add_refuted.
Print Assumptions C18_drop_collision_refuted.
Print Assumptions C18_drop_absent_refuted.
Print Assumptions C18_drop_absent_choice_refuted.
Print Assumptions C18_intern_refuted.
Print Assumptions C18_merge_refuted.
Print Assumptions C18_clean_refuted.
Print Assumptions C18_initial_count_refuted.

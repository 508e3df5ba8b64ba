(** * Property C42: constants registered at run time. *)
From Coq Require Import String Ascii.
From Verif Require Import BytesModel ConstsModel.
Local Open Scope N_scope.

(** ** Specification: a history of calls, the results in order. *)
Inductive run : consts -> list (nat * string * cres) -> consts -> Prop :=
| run_nil c : run c [] c
| run_cons c t name r c1 calls c2 : register c t name = (c1, r) -> run c1 calls c2 -> run c ((t, name, r) :: calls) c2.
(** Same name up to ASCII case. *)
Definition eq_nocase (a b : string) : Prop := smap to_lower a = smap to_lower b.

(** ** Invariant: the first [cn_n] entries are names, pairwise different. *)
Definition entry (c : consts) (i : nat) (s : string) : Prop := nth_error (cn_names c) i = Some (Some s).
Record good (c : consts) : Prop := {
  g_len : length (cn_names c) = 512%nat;
  g_low : (25 <= cn_n c <= 512)%nat;
  g_all : forall i, (i < cn_n c)%nat -> exists s, entry c i s;
  g_dist : forall i j s s', (i < cn_n c)%nat -> (j < cn_n c)%nat -> entry c i s -> entry c j s' -> eq_nocase s s' -> i = j;
  g_builtin : forall i, (i < 25)%nat -> nth_error (cn_names c) i = nth_error (cn_names initial) i }.

Lemma same_name_spec : forall a b, same_name a b = true <-> eq_nocase a b.
Proof. intros a b. apply String.eqb_eq. Qed.
Lemma find_name_spec : forall name n names i,
  match find_name names n i name with
  | Some j => exists k s, j = (i + k)%nat /\ (k < n)%nat /\ nth_error names k = Some (Some s) /\ eq_nocase name s
  | None => forall k s, (k < n)%nat -> nth_error names k = Some (Some s) -> ~ eq_nocase name s
  end.
Proof.
  induction n as [|n IH]; intros [|[x|] r] i; cbn [find_name]; try (intros k s Hk E; exfalso; destruct k; discriminate || lia).
  - destruct (same_name name x) eqn:E.
    + exists 0%nat, x. rewrite same_name_spec in E. rewrite Nat.add_0_r. repeat split; auto. lia.
    + specialize (IH r (S i)). destruct (find_name r n (S i) name).
      * destruct IH as (k & s & -> & H1 & H2 & H3). exists (S k), s. repeat split; auto; lia.
      * intros [|k] s Hk Hn; [injection Hn as ->; intro C; apply same_name_spec in C; congruence|]. apply (IH k s); [lia|exact Hn].
  - specialize (IH r (S i)). destruct (find_name r n (S i) name).
    + destruct IH as (k & s & -> & H1 & H2 & H3). exists (S k), s. repeat split; auto; lia.
    + intros [|k] s Hk Hn; [discriminate|]. apply (IH k s); [lia|exact Hn].
Qed.
Lemma set_nth_len : forall l i x, length (set_nth l i x) = length l.
Proof. induction l as [|y r IH]; intros [|i] x; cbn; auto. Qed.
Lemma set_nth_get : forall l i x j, (i < length l)%nat -> nth_error (set_nth l i x) j = if Nat.eqb i j then Some x else nth_error l j.
Proof.
  induction l as [|y r IH]; intros i x j H; cbn [length] in H; [lia|]. destruct i, j; cbn [set_nth nth_error Nat.eqb]; auto.
  apply IH. lia.
Qed.

Lemma good_initial : good initial.
Proof.
  constructor; [reflexivity|change (cn_n initial) with 25%nat; lia| | |reflexivity || auto].
  - intros i Hi. change (cn_n initial) with 25%nat in Hi.
    do 25 (destruct i as [|i]; [eexists; reflexivity|]). lia.
  - intros i j s s' Hi Hj Ei Ej E. change (cn_n initial) with 25%nat in *. unfold entry in *.
    assert (T : forall k x, (k < 25)%nat -> nth_error (cn_names initial) k = Some (Some x) -> find_name (cn_names initial) 25 0 x = Some k).
    { clear. intros k x Hk E. do 25 (destruct k as [|k]; [cbn in E; injection E as <-; vm_compute; reflexivity|]). lia. }
    assert (F : forall names n i a b, eq_nocase a b -> find_name names n i a = find_name names n i b).
    { clear. intros names n. revert names. induction n as [|n IH]; intros [|[x|] r] i a b E; cbn [find_name]; auto.
      unfold same_name. rewrite E. destruct (String.eqb _ _); auto. }
    pose proof (T i s Hi Ei) as A. pose proof (T j s' Hj Ej) as B. rewrite (F _ _ _ _ _ E) in A. congruence.
Qed.

Lemma register_good : forall c t name c' r, good c -> register c t name = (c', r) ->
  good c' /\ (cn_n c <= cn_n c')%nat /\ (forall i s, (i < cn_n c)%nat -> entry c i s -> entry c' i s) /\
  forall k, r = Const k -> exists i s, (i < cn_n c')%nat /\ k = KNO_CONSTANT (N.of_nat i) /\ entry c' i s /\ eq_nocase name s /\
    ((i < cn_n c)%nat \/ (i = cn_n c /\ s = name)).
Proof.
  intros c t name c' r G H. unfold register in H.
  destruct (match cn_lock c with Some o => Nat.eqb o t | None => true end).
  2:{ injection H as <- <-. split; [assumption|]. split; [lia|]. split; [auto|discriminate]. }
  pose proof (find_name_spec name (cn_n c) (cn_names c) 0) as F.
  set (lk := {| cn_names := cn_names c; cn_n := cn_n c; cn_table := cn_table c; cn_lock := Some t |}) in *.
  assert (GL : good lk) by (destruct G; constructor; assumption).
  destruct (find_name (cn_names c) (cn_n c) 0 name) as [j|].
  - injection H as <- <-. split; [assumption|]. split; [cbn; lia|]. split; [auto|].
    intros k Hk. injection Hk as <-. destruct F as (i & s & -> & F1 & F2 & F3). exists i, s. do 4 (split; [assumption || reflexivity|]). now left.
  - destruct (add_constname (cn_table c) name (KNO_CONSTANT (N.of_nat (cn_n c)))) as [tb rv].
    destruct (rv <? 0)%Z; [injection H as <- <-; split; [assumption|]; split; [cbn; lia|]; split; [auto|discriminate]|].
    destruct (Nat.ltb_spec (cn_n c) 512) as [L|L]; [|injection H as <- <-; split; [assumption|]; split; [cbn; lia|]; split; [auto|discriminate]].
    injection H as <- <-. destruct G as [G1 G2 G3 G4 G5]. unfold entry in *. cbn [cn_names cn_n].
    assert (SG : forall j, nth_error (set_nth (cn_names c) (cn_n c) (Some name)) j = if Nat.eqb (cn_n c) j then Some (Some name) else nth_error (cn_names c) j).
    { intro j. apply set_nth_get. lia. }
    assert (EN : forall i s, (i < cn_n c)%nat -> nth_error (cn_names c) i = Some (Some s) -> nth_error (set_nth (cn_names c) (cn_n c) (Some name)) i = Some (Some s)).
    { intros i s Hi E. rewrite SG. destruct (Nat.eqb_spec (cn_n c) i); [lia|assumption]. }
    split.
    { constructor; unfold entry; cbn [cn_names cn_n].
      - rewrite set_nth_len. assumption.
      - lia.
      - intros i Hi. destruct (Nat.eq_dec i (cn_n c)) as [->|Hne].
        + exists name. rewrite SG, Nat.eqb_refl. reflexivity.
        + destruct (G3 i ltac:(lia)) as (s & E). exists s. apply EN; [lia|assumption].
      - intros i j s s' Hi Hj. rewrite !SG. intros Ei Ej E.
        destruct (Nat.eqb_spec (cn_n c) i) as [A|A]; destruct (Nat.eqb_spec (cn_n c) j) as [B|B]; [lia| | |].
        + injection Ei as <-. exfalso. apply (F j s'); [lia|assumption|assumption].
        + injection Ej as <-. exfalso. apply (F i s); [lia|assumption|]. now symmetry.
        + apply (G4 i j s s'); [lia|lia|assumption|assumption|assumption].
      - intros i Hi. rewrite SG. destruct (Nat.eqb_spec (cn_n c) i); [lia|]. now apply G5. }
    split; [lia|]. split; [exact EN|].
    intros k Hk. injection Hk as <-. exists (cn_n c), name. split; [lia|]. split; [reflexivity|].
    split; [rewrite SG, Nat.eqb_refl; reflexivity|]. split; [reflexivity|]. right. auto.
Qed.

Lemma run_good : forall c calls c', run c calls c' -> good c ->
  good c' /\ (cn_n c <= cn_n c')%nat /\ (forall i s, (i < cn_n c)%nat -> entry c i s -> entry c' i s) /\
  forall t name k, In (t, name, Const k) calls -> exists i s, (i < cn_n c')%nat /\ k = KNO_CONSTANT (N.of_nat i) /\ entry c' i s /\ eq_nocase name s.
Proof.
  intros c calls c' R. induction R as [c|c t name r c1 calls c2 E R IH]; intro G.
  - split; [assumption|]. split; [lia|]. split; [auto|]. intros t name k [].
  - destruct (register_good c t name c1 r G E) as (G1 & L1 & K1 & C1). destruct (IH G1) as (G2 & L2 & K2 & C2).
    split; [assumption|]. split; [lia|]. split.
    { intros i s Hi Hs. apply K2; [lia|]. now apply K1. }
    intros t' name' k [H|H].
    + injection H as -> -> ->. destruct (C1 k eq_refl) as (i & s & H1 & H2 & H3 & H4 & _). exists i, s.
      split; [lia|]. split; [assumption|]. split; [|assumption]. now apply K2.
    + now apply (C2 t' name').
Qed.
Lemma constant_inj : forall i j, KNO_CONSTANT i = KNO_CONSTANT j -> i = j.
Proof.
  assert (E : forall i, KNO_CONSTANT i = 4 * i + 1).
  { intro i. unfold KNO_CONSTANT. rewrite N.shiftl_mul_pow2. change (2^2) with 4. rewrite N.lor_comm.
    assert (L : N.land (i * 4) 1 = 0).
    { change 1 with (N.ones 1). rewrite N.land_ones. change (2^1) with 2. replace (i * 4) with (i * 2 * 2) by lia. apply N.mod_mul. lia. }
    pose proof (N.lxor_lor _ _ L) as X. pose proof (N.add_nocarry_lxor _ _ L) as Y. lia. }
  intros i j. rewrite !E. lia.
Qed.

(** Registered constants are different exactly when their names are (up to case), for
    every history from the initial state; all threads, as long as they get answers. *)
Theorem C42_distinct : forall calls c t t' name name' k k', run initial calls c ->
  In (t, name, Const k) calls -> In (t', name', Const k') calls -> (k = k' <-> eq_nocase name name').
Proof.
  intros calls c t t' name name' k k' R H H'.
  destruct (run_good _ _ _ R good_initial) as (G & _ & _ & C).
  destruct (C _ _ _ H) as (i & s & H1 & -> & H3 & H4). destruct (C _ _ _ H') as (j & s' & J1 & -> & J3 & J4). split.
  - intro E. apply constant_inj in E. assert (i = j) by lia. subst j. unfold entry in *. rewrite H3 in J3. injection J3 as ->.
    unfold eq_nocase in *. congruence.
  - intro E. f_equal. f_equal. apply (g_dist _ G i j s s'); auto. unfold eq_nocase in *. congruence.
Qed.
(** A registered constant differs from the built-in constants 0 to 24, unless the name is
    one of theirs. *)
Theorem C42_builtin_partial : forall calls c t name k i, run initial calls c -> In (t, name, Const k) calls ->
  (i < 25)%nat -> k = KNO_CONSTANT (N.of_nat i) -> exists s, nth_error builtin_names i = Some s /\ eq_nocase name s.
Proof.
  intros calls c t name k i R H Hi E.
  destruct (run_good _ _ _ R good_initial) as (G & _ & _ & C). destruct (C _ _ _ H) as (j & s & H1 & H2 & H3 & H4).
  rewrite E in H2. apply constant_inj in H2. assert (i = j) by lia. subst j. unfold entry in H3. rewrite (g_builtin _ G i Hi) in H3.
  exists s. split; [|assumption]. change (cn_names initial) with (map Some builtin_names ++ repeat None 486) in H3.
  rewrite nth_error_app1 in H3 by (cbn; lia). rewrite nth_error_map in H3. destruct (nth_error builtin_names i); [|discriminate].
  cbn in H3. congruence.
Qed.
(** The name of a registered constant can be asked for (below 256). *)
Theorem C42_name : forall calls c t name k, run initial calls c -> In (t, name, Const k) calls -> N.shiftr k 2 < 256 ->
  exists s, constant_name c k = Some s /\ eq_nocase name s.
Proof.
  intros calls c t name k R H Hk. destruct (run_good _ _ _ R good_initial) as (G & _ & _ & C).
  destruct (C _ _ _ H) as (i & s & H1 & E & H3 & H4). exists s. split; [|assumption]. unfold constant_name.
  destruct (N.ltb_spec (N.shiftr k 2) 256); [|lia].
  assert (X : N.shiftr k 2 = N.of_nat i).
  { rewrite E. unfold KNO_CONSTANT. rewrite N.shiftr_lor, N.shiftr_shiftl_l by lia. now rewrite N.sub_diag, N.shiftl_0_r. }
  rewrite X, Nat2N.id. unfold entry in H3. now rewrite H3.
Qed.

Local Open Scope string_scope.
Local Open Scope list_scope.
Local Open Scope N_scope.
Example C42_met : let c1 := fst (register initial 0 "plugh") in let c2 := fst (register c1 0 "PLUGH") in
  snd (register initial 0 "plugh") = Const (KNO_CONSTANT 25) /\ snd (register c1 0 "PLUGH") = Const (KNO_CONSTANT 25) /\
  snd (register c2 0 "rational_xtag") = Const (KNO_CONSTANT 26).
Proof. vm_compute. auto. Qed.

(** The first constant registered is KNO_BLANK_PARSE, a built-in constant with another
    name ("#blank"): KNO_N_BUILTIN_CONSTANTS is one too small.  At startup this is
    "plugh"; the parser then drops #plugh as if it were nothing. *)
Theorem C42_blank_parse_refuted : snd (register initial 0 "plugh") = Const KNO_BLANK_PARSE /\
  In KNO_BLANK_PARSE builtin_constants /\ ~ eq_nocase "plugh" "#blank".
Proof.
  split; [vm_compute; reflexivity|]. split; [vm_compute; intuition|]. unfold eq_nocase. vm_compute. discriminate.
Qed.
(** No path of kno_register_constant releases the lock: after one call, every call of
    every other thread waits, whatever happens in between. *)
Lemma lock_kept : forall c calls c' o, run c calls c' -> cn_lock c = Some o -> cn_lock c' = Some o.
Proof.
  intros c calls c' o R. induction R as [c|c t name r c1 calls c2 E R IH]; intro L; [assumption|]. apply IH.
  unfold register in E. rewrite L in E. destruct (Nat.eqb_spec o t) as [->|].
  - destruct (find_name _ _ _ _); [injection E as <- _; reflexivity|]. destruct (add_constname _ _ _) as [tb rv].
    destruct (rv <? 0)%Z; [injection E as <- _; reflexivity|]. destruct (_ <? 512)%nat; injection E as <- _; reflexivity.
  - injection E as <- _. assumption.
Qed.
Lemma register_locks : forall c t name c' r, register c t name = (c', r) -> cn_lock c = None -> cn_lock c' = Some t.
Proof.
  intros c t name c' r E L. unfold register in E. rewrite L in E. destruct (find_name _ _ _ _); [injection E as <- _; reflexivity|].
  destruct (add_constname _ _ _) as [tb rv]. destruct (rv <? 0)%Z; [injection E as <- _; reflexivity|].
  destruct (_ <? 512)%nat; injection E as <- _; reflexivity.
Qed.
Theorem C42_lock_refuted : forall t t' name name' c1 r calls c2, t <> t' -> register initial t name = (c1, r) ->
  run c1 calls c2 -> snd (register c2 t' name') = Blocked.
Proof.
  intros t t' name name' c1 r calls c2 Ht E R.
  pose proof (register_locks _ _ _ _ _ E eq_refl) as L.
  pose proof (lock_kept _ _ _ _ R L) as L2. unfold register. rewrite L2. destruct (Nat.eqb_spec t t'); [contradiction|reflexivity].
Qed.
(** The array has 512 entries and nothing checks: the 488th new name is written behind
    it. *)
Definition two_letters (n : nat) : string :=
  let letter k := ascii_of_N (97 + k) in String (letter (N.of_nat n / 26)) (String (letter (N.of_nat n mod 26)) EmptyString).
Theorem C42_overflow_refuted : exists calls c, run initial calls c /\ snd (register c 0 (two_letters 487)) = OutOfBounds.
Proof.
  pose (step := fun (cl : consts * list (nat * string * cres)) n => let (c, l) := cl in let (c', r) := register c 0 (two_letters n) in (c', (l ++ [(0%nat, two_letters n, r)])%list)).
  assert (R : forall ns c l c', run initial l c -> fst (fold_left step ns (c, l)) = c' -> exists l', run initial l' c').
  { assert (A : forall c0 l c t name c' r, run c0 l c -> register c t name = (c', r) -> run c0 (l ++ [(t, name, r)])%list c').
    { intros c0 l c t name c' r R. revert c' r. induction R; intros c' r' E; cbn [List.app]; econstructor; eauto using run_nil. }
    induction ns as [|n ns IH]; intros c l c' R H; [cbn in H; subst; eauto|]. cbn [fold_left] in H.
    destruct (register c 0 (two_letters n)) as [c1 r] eqn:E. unfold step at 2 in H. rewrite E in H. eapply IH; [|exact H]. eapply A; eassumption. }
  destruct (R (seq 0 487) initial [] _ (run_nil _) eq_refl) as (l & Hl).
  exists l. eexists. split; [exact Hl|]. vm_compute. reflexivity.
Qed.

Print Assumptions C42_distinct.
Print Assumptions C42_builtin_partial.
Print Assumptions C42_name.
Print Assumptions C42_blank_parse_refuted.
Print Assumptions C42_lock_refuted.
Print Assumptions C42_overflow_refuted.

(** * Hash codes: properties *)

From Coq Require Import NArith ZArith List Bool Lia SpecFloat Permutation.
From Verif Require Import ValueModel ValueProofs BytesModel HashModel HashProofs.
Import ListNotations.
Local Open Scope N_scope.

(** ** C63: equal values have equal hash codes *)

(** kno_hash_lisp, by which the tables in memory choose the bucket, for values equal by
    LISP_EQUAL.  The values may contain packets and secrets, zeros of both signs, symbols,
    OIDs, quoted choices and objects without comparator; they contain no string with a NUL,
    no NaN and no complex number.  (Compounds are not equal in the model of LISP_EQUAL.) *)
Theorem C63_memory_partial : forall ub x y,
  key_ok true true x = true -> key_ok true true y = true ->
  lequal x y = true -> Mem.hash_lisp ub x = Mem.hash_lisp ub y.
Proof.
  intros ub x y Hx Hy E. apply mem_sim.
  apply (lequal_sim true true); auto. intros. now apply mem_num.
Qed.
Print Assumptions C63_memory_partial.

(** The same for values that the comparison of choices (KNO_COMPARE_QUICK) calls equal, with
    compounds. *)
Theorem C63_memory_compare_partial : forall ub x y,
  key_ok true true x = true -> key_ok true true y = true ->
  qcompare x y = Eq -> Mem.hash_lisp ub x = Mem.hash_lisp ub y.
Proof.
  intros ub x y Hx Hy E. apply mem_sim.
  apply (qcompare_sim true true); auto. intros. now apply mem_num.
Qed.
Print Assumptions C63_memory_compare_partial.

(** kno_hash_lisp1, the first hash function of index files; without secrets and without the
    negative zero. *)
Theorem C63_file1_partial : forall p decode x y,
  key_ok false false x = true -> key_ok false false y = true ->
  lequal x y = true -> Dt.hash_lisp1 p decode x = Dt.hash_lisp1 p decode y.
Proof.
  intros p d x y Hx Hy E.
  apply (hash1_sim p p d eq eq).
  - intros w w' ->. reflexivity.
  - intros w w' ->. reflexivity.
  - intros l m ->. split; reflexivity.
  - apply (sim_eq_perm _ _ (fun _ _ => True)); auto.
    apply (lequal_sim false false); auto.
    + intros. now apply dt_num1.
    + now intros [] [].
Qed.
Print Assumptions C63_file1_partial.

(** kno_hash_lisp2 and kno_hash_lisp3. *)
Lemma file23 : forall p ub o c x y,
  key_ok true true x = true -> key_ok true true y = true ->
  lequal x y = true -> Dt.hash_lisp23 p ub o c x = Dt.hash_lisp23 p ub o c y.
Proof.
  intros p ub o c x y Hx Hy E.
  apply (hash2_sim p p ub ub o c eq).
  - intros w w' ->. reflexivity.
  - intros w w' ->. reflexivity.
  - apply (sim_eq_perm _ _ (fun _ _ => True)); auto.
    apply (lequal_sim true true); auto. intros. now apply dt_num2.
Qed.
Theorem C63_file2_partial : forall p ub x y,
  key_ok true true x = true -> key_ok true true y = true ->
  lequal x y = true -> Dt.hash_lisp2 p ub x = Dt.hash_lisp2 p ub y.
Proof. intros p ub. apply file23. Qed.
Print Assumptions C63_file2_partial.
Theorem C63_file3_partial : forall p ub x y,
  key_ok true true x = true -> key_ok true true y = true ->
  lequal x y = true -> Dt.hash_lisp3 p ub x = Dt.hash_lisp3 p ub y.
Proof. intros p ub. apply file23. Qed.
Print Assumptions C63_file3_partial.

(** A list with a packet here and a secret there, and zeros of both signs: equal, with equal
    codes. *)
Definition no_names : Dt.process := {| Dt.symname := fun _ => [97]; Dt.oidaddr := fun w => w |}.
Definition plainbytes (s : list N) : list Z := map Z.of_N s.
Definition z0 (s : bool) : val := VNum (NReal (RFlo (S754_zero s))).
Example C63_case :
  let x := VPair (VStr [97; 98; 99; 100; 101]) (VVec [VPacket true [1; 2]; z0 true]) in
  let y := VPair (VStr [97; 98; 99; 100; 101]) (VVec [VPacket false [1; 2]; z0 false]) in
  key_ok true true x = true /\ key_ok true true y = true /\ lequal x y = true /\ x <> y /\
  Mem.hash_lisp (fun _ => 0) x = Mem.hash_lisp (fun _ => 0) y /\
  Mem.hash_lisp (fun _ => 0) x <> Mem.hash_lisp (fun _ => 0) (VStr [97; 98; 99; 100; 101]) /\
  Dt.hash_lisp2 no_names (fun _ => 0) x = Dt.hash_lisp2 no_names (fun _ => 0) y.
Proof. repeat split; try discriminate; try reflexivity; try (intros X; discriminate X). Qed.
Example C63_case1 :
  let x := VPair (VStr [97; 98]) (VAtom w_nil) in
  key_ok false false x = true /\ lequal x x = true /\
  Dt.hash_lisp1 no_names plainbytes x = 24930 /\
  Dt.hash_lisp1 no_names plainbytes x <> Dt.hash_lisp1 no_names plainbytes (VPair (VStr [98; 97]) (VAtom w_nil)).
Proof. repeat split; try reflexivity. intros X; discriminate X. Qed.

(** Two strings that differ after a NUL are equal and have different hash codes. *)
Theorem C63_nul_refuted : exists x y, lequal x y = true /\
  (forall ub, Mem.hash_lisp ub x <> Mem.hash_lisp ub y) /\
  (forall p d, Dt.hash_lisp1 p d x <> Dt.hash_lisp1 p d y).
Proof.
  exists (VStr [0; 97]), (VStr [0; 98]). split; [reflexivity|].
  split; intros; intros X; discriminate X.
Qed.
Print Assumptions C63_nul_refuted.
(** NaN equals every flonum. *)
Theorem C63_nan_refuted : exists x y, lequal x y = true /\
  (forall p d, Dt.hash_lisp1 p d x <> Dt.hash_lisp1 p d y).
Proof.
  exists (VNum (NReal (RFlo S754_nan))), (VNum (NReal (RFlo (S754_finite false 1 0)))).
  split; [reflexivity|]. intros p d X. discriminate X.
Qed.
Print Assumptions C63_nan_refuted.
(** Complex numbers are compared by magnitude: 3+4i equals 5i, with another hash code. *)
Theorem C63_complex_refuted : exists x y, lequal x y = true /\
  (forall ub, Mem.hash_lisp ub x <> Mem.hash_lisp ub y) /\
  (forall p ub, Dt.hash_lisp2 p ub x <> Dt.hash_lisp2 p ub y).
Proof.
  exists (VNum (NCpx (RInt 3) (RInt 4))), (VNum (NCpx (RInt 0) (RInt 5))).
  split; [vm_compute; reflexivity|].
  split; intros; intros X; discriminate X.
Qed.
Print Assumptions C63_complex_refuted.
(** For kno_hash_lisp1 all secrets have the code 17, packets have codes of their own, and a
    secret equals the packet with the same bytes. *)
Theorem C63_secret_refuted : exists x y, lequal x y = true /\
  (forall p d, Dt.hash_lisp1 p d x <> Dt.hash_lisp1 p d y).
Proof.
  exists (VPacket true [1; 2]), (VPacket false [1; 2]).
  split; [reflexivity|]. intros p d X. discriminate X.
Qed.
Print Assumptions C63_secret_refuted.
(** For kno_hash_lisp1 the two zeros, which are equal, differ by their sign bit. *)
Theorem C63_zero_refuted : exists x y, lequal x y = true /\
  (forall p d, Dt.hash_lisp1 p d x <> Dt.hash_lisp1 p d y).
Proof.
  exists (z0 true), (z0 false). split; [reflexivity|]. intros p d X. discriminate X.
Qed.
Print Assumptions C63_zero_refuted.

(** ** C64: the codes used in files do not depend on the process *)

Definition symbolp (w : N) : Prop := manifest w = 1 /\ imm_type w = 6.
Definition oidp (w : N) : Prop := manifest w = 3.
(** [x] in the process [p] and [y] in the process [q] are the same value: symbols have the
    same name, OIDs the same address, whatever their words; objects in memory may be at
    other addresses; and a choice, whose elements are kept in an order that depends on the
    words of symbols and OIDs, may have its elements in another order. *)
Inductive alike (p q : Dt.process) : val -> val -> Prop :=
| al_atom w : ~ symbolp w -> ~ oidp w -> alike p q (VAtom w) (VAtom w)
| al_symbol w w' : symbolp w -> symbolp w' -> Dt.symname p w = Dt.symname q w' ->
    alike p q (VAtom w) (VAtom w')
| al_oid w w' : oidp w -> oidp w' -> Dt.oidaddr p w = Dt.oidaddr q w' ->
    alike p q (VAtom w) (VAtom w')
| al_num n : alike p q (VNum n) (VNum n)
| al_str s : alike p q (VStr s) (VStr s)
| al_packet b s : alike p q (VPacket b s) (VPacket b s)
| al_pair a b a' b' : alike p q a a' -> alike p q b b' -> alike p q (VPair a b) (VPair a' b')
| al_vec l m : Forall2 (alike p q) l m -> alike p q (VVec l) (VVec m)
| al_choice l m m' : Forall2 (alike p q) l m -> Permutation m m' ->
    alike p q (VChoice l) (VChoice m')
| al_qchoice l m m' : Forall2 (alike p q) l m -> Permutation m m' ->
    alike p q (VQChoice l) (VQChoice m')
| al_compound t u l m : alike p q t u -> Forall2 (alike p q) l m ->
    alike p q (VCompound t l) (VCompound u m)
| al_other t a b : alike p q (VOther t a) (VOther t b).

(** No flonum of magnitude 2^32 or more, no infinity, no NaN: the conversion to an unsigned
    integer in hash_flonum is defined. *)
Definition real_small (r : real) : bool :=
  match r with
  | RFlo (S754_finite _ m e) => (flo_floor m e <? 2 ^ 32)%Z
  | RFlo (S754_zero _) => true
  | RFlo _ => false
  | _ => true
  end.
Fixpoint flo_small (v : val) : bool :=
  match v with
  | VNum (NReal r) => real_small r
  | VNum (NCpx a b) => real_small a && real_small b
  | VPair a b => flo_small a && flo_small b
  | VVec l | VChoice l | VQChoice l => forallb flo_small l
  | VCompound t l => flo_small t && forallb flo_small l
  | _ => true
  end.
(** No negative fixnum is an element of a choice (nor a choice quoted in a choice). *)
Fixpoint choices_small (v : val) : bool :=
  match v with
  | VPair a b => choices_small a && choices_small b
  | VVec l => forallb choices_small l
  | VChoice l | VQChoice l => forallb choices_small l && forallb small1 l
  | VCompound t l => choices_small t && forallb choices_small l
  | _ => true
  end.

Definition Arel (p q : Dt.process) (w w' : N) : Prop :=
  (w = w' /\ ~ symbolp w /\ ~ oidp w) \/
  (symbolp w /\ symbolp w' /\ Dt.symname p w = Dt.symname q w') \/
  (oidp w /\ oidp w' /\ Dt.oidaddr p w = Dt.oidaddr q w').
Lemma manifest_cases w : manifest w < 4.
Proof.
  unfold manifest. change 3 with (N.ones 2). rewrite N.land_ones. now apply N.mod_lt.
Qed.
Lemma atom_alike p q o k w w' : manifest w <> 0 -> Arel p q w w' ->
  Dt.hash_atom p o k w = Dt.hash_atom q o k w'.
Proof.
  intros M0 [[-> [H1 H2]]|[[[A1 A2] [[B1 B2] E]]|[A1 [B1 E]]]]; unfold Dt.hash_atom, Dt.hash_imm.
  - unfold oidp in H2. unfold symbolp in H1. pose proof (manifest_cases w') as HM.
    destruct (N.eqb_spec (manifest w') 2); [reflexivity|].
    destruct (N.eqb_spec (manifest w') 3); [contradiction|].
    destruct (N.eqb_spec (imm_type w') 6); [|reflexivity].
    exfalso. apply H1. split; [lia|assumption].
  - rewrite A1, A2, B1, B2, E. reflexivity.
  - rewrite A1, B1, E. reflexivity.
Qed.
Lemma nil_alike p q : nil_ok (Arel p q).
Proof.
  intros w w' [[-> _]|[[[A1 A2] [[B1 B2] _]]|[A1 [B1 _]]]]; [reflexivity| |];
    destruct (N.eqb_spec w w_nil), (N.eqb_spec w' w_nil); subst; try reflexivity; discriminate.
Qed.

(** The word of an atom is not that of a pointer to a heap object. *)
Fixpoint words_ok (v : val) : bool :=
  match v with
  | VAtom w => negb (manifest w =? 0)
  | VPair a b => words_ok a && words_ok b
  | VVec l | VChoice l | VQChoice l => forallb words_ok l
  | VCompound t l => words_ok t && forallb words_ok l
  | _ => true
  end.

Lemma alike_sim2 p q u u' x : forall y, words_ok x = true -> flo_small x = true -> alike p q x y ->
  sim (fun w w' => manifest w <> 0 /\ Arel p q w w')
      (fun n m => Dt.hash_num2 u n = Dt.hash_num2 u' m) (fun _ _ => True)
      (@Permutation val) (fun _ _ => True) x y.
Proof.
  set (S2 := sim _ _ _ _ _).
  assert (FL : forall l, Forall (fun x => forall y, words_ok x = true -> flo_small x = true ->
      alike p q x y -> S2 x y) l ->
    forall m, forallb words_ok l = true -> forallb flo_small l = true ->
    Forall2 (alike p q) l m -> Forall2 S2 l m).
  { induction l as [|a l IH]; intros F m Hw Hl G; inversion G; subst; [constructor|].
    inversion F; subst. cbn in Hl, Hw. apply andb_true_iff in Hl, Hw.
    constructor; [apply H2; tauto|apply IH; tauto]. }
  assert (NR : forall r, real_small r = true -> Dt.hash_real2 u r = Dt.hash_real2 u' r).
  { intros [z|n d|[s|s| |s m e]] Hr; try reflexivity; try discriminate.
    cbn [Dt.hash_real2]. unfold hash_flonum. cbn [real_small] in Hr. now rewrite Hr. }
  induction x using val_ind'; intros y Hw Hf HA; inversion HA; subst;
    cbn [words_ok flo_small] in Hw, Hf.
  - constructor. split; [intros X; now rewrite X in Hw|]. left. auto.
  - constructor. split; [intros X; now rewrite X in Hw|]. right. left. auto.
  - constructor. split; [intros X; now rewrite X in Hw|]. right. right. auto.
  - constructor. destruct n as [[z|n d|f]|re im]; try reflexivity.
    + apply (NR (RFlo f)). exact Hf.
    + apply andb_true_iff in Hf. cbn [Dt.hash_num2]. f_equal; apply NR; tauto.
  - constructor.
  - now constructor.
  - apply andb_true_iff in Hw, Hf. constructor; [apply IHx1|apply IHx2]; tauto.
  - constructor. apply FL; assumption.
  - econstructor; [apply FL; eassumption|assumption].
  - econstructor; [apply FL; eassumption|assumption].
  - apply andb_true_iff in Hw, Hf. constructor; [apply IHx|apply FL]; tauto.
  - now constructor.
Qed.

(** kno_hash_lisp2 and kno_hash_lisp3: the same value has the same code in every process and
    with every meaning of the undefined conversion. *)
Theorem C64_file2_partial : forall p q ub ub' x y,
  words_ok x = true -> flo_small x = true -> alike p q x y ->
  Dt.hash_lisp2 p ub x = Dt.hash_lisp2 q ub' y.
Proof.
  intros p q u u' x y Hw Hf HA.
  apply (hash2_sim p q u u' Dt.MAGIC Dt.MAGIC (fun w w' => manifest w <> 0 /\ Arel p q w w')).
  - intros w w' [_ H]. exact (nil_alike p q w w' H).
  - intros w w' [M H]. now apply atom_alike.
  - now apply alike_sim2.
Qed.
Print Assumptions C64_file2_partial.
Theorem C64_file3_partial : forall p q ub ub' x y,
  words_ok x = true -> flo_small x = true -> alike p q x y ->
  Dt.hash_lisp3 p ub x = Dt.hash_lisp3 q ub' y.
Proof.
  intros p q u u' x y Hw Hf HA.
  apply (hash2_sim p q u u' Dt.MYSTERIOUS Dt.MIDDLIN (fun w w' => manifest w <> 0 /\ Arel p q w w')).
  - intros w w' [_ H]. exact (nil_alike p q w w' H).
  - intros w w' [M H]. now apply atom_alike.
  - now apply alike_sim2.
Qed.
Print Assumptions C64_file3_partial.

Definition small_perm (l m : list val) : Prop := Permutation l m /\ forallb small1 m = true.
Lemma alike_sim1 p q x : forall y, words_ok x = true -> choices_small y = true -> alike p q x y ->
  sim (fun w w' => manifest w <> 0 /\ Arel p q w w')
      (fun n m => Dt.hash_num1 n = Dt.hash_num1 m) eq small_perm (fun _ _ => True) x y.
Proof.
  set (S1 := sim _ _ _ _ _).
  assert (FL : forall l, Forall (fun x => forall y, words_ok x = true -> choices_small y = true ->
      alike p q x y -> S1 x y) l ->
    forall m, forallb words_ok l = true -> forallb choices_small m = true ->
    Forall2 (alike p q) l m -> Forall2 S1 l m).
  { induction l as [|a l IH]; intros F m Hw Hl G; inversion G; subst; [constructor|].
    inversion F; subst. cbn in Hl, Hw. apply andb_true_iff in Hl, Hw.
    constructor; [apply H2; tauto|apply IH; tauto]. }
  assert (PF : forall m m', Permutation m m' -> forallb choices_small m' = true ->
      forallb choices_small m = true).
  { intros m m' HP F. rewrite forallb_forall in *. intros a Ha. apply F.
    eapply Permutation_in; eassumption. }
  induction x using val_ind'; intros y Hw Hf HA; inversion HA; subst;
    cbn [words_ok choices_small] in Hw, Hf.
  - constructor. split; [intros X; now rewrite X in Hw|]. left. auto.
  - constructor. split; [intros X; now rewrite X in Hw|]. right. left. auto.
  - constructor. split; [intros X; now rewrite X in Hw|]. right. right. auto.
  - now constructor.
  - constructor.
  - now constructor.
  - apply andb_true_iff in Hw, Hf. constructor; [apply IHx1|apply IHx2]; tauto.
  - constructor. apply FL; assumption.
  - apply andb_true_iff in Hf. destruct Hf as [F1 F2].
    apply (sim_choice _ _ _ _ _ _ m); [apply FL; eauto|]. now split.
  - apply andb_true_iff in Hf. destruct Hf as [F1 F2].
    apply (sim_qchoice _ _ _ _ _ _ m); [apply FL; eauto|]. now split.
  - apply andb_true_iff in Hw, Hf. constructor; [apply IHx|apply FL]; tauto.
  - now constructor.
Qed.

(** kno_hash_lisp1: the same, for flonums too (their bits are hashed), if no choice has a
    negative fixnum among its elements.  (Its code is near 2^32, so that the sum over the
    elements can overflow.) *)
Theorem C64_file1_partial : forall p q decode x y,
  words_ok x = true -> choices_small y = true -> alike p q x y ->
  Dt.hash_lisp1 p decode x = Dt.hash_lisp1 q decode y.
Proof.
  intros p q d x y Hw Hf HA.
  apply (hash1_sim p q d (fun w w' => manifest w <> 0 /\ Arel p q w w') small_perm).
  - intros w w' [_ H]. exact (nil_alike p q w w' H).
  - intros w w' [M H]. now apply atom_alike.
  - intros l m [HP HF]. split; [assumption|]. symmetry.
    apply choice1_perm; [|now apply Permutation_map, Permutation_sym].
    rewrite Forall_map, Forall_forall. intros a Ha.
    rewrite forallb_forall in HF. specialize (HF a Ha).
    pose proof (hash1_bound q d a HF) as HB. unfold Dt.MAGIC in HB. lia.
  - now apply alike_sim1.
Qed.
Print Assumptions C64_file1_partial.

(** Two processes in which the symbols APPLE and BEET have been made in the other order: the
    choice of the two, kept in the order of the words, has its elements swapped. *)
Definition sym (n : N) : N := 2 * 2 ^ 25 + 4 * n + 1.
Definition apple : list N := [65; 80; 80; 76; 69].
Definition beet : list N := [66; 69; 69; 84].
Definition names (a b : list N) : Dt.process :=
  {| Dt.symname := fun w => if w =? sym 0 then a else b; Dt.oidaddr := fun w => w |}.
Example C64_case :
  let p := names apple beet in let q := names beet apple in
  let x := VChoice [VAtom (sym 0); VAtom (sym 1)] in
  alike p q x x /\ words_ok x = true /\ flo_small x = true /\ choices_small x = true /\
  alike p q (VAtom (sym 0)) (VAtom (sym 1)) /\
  Dt.hash_lisp1 p plainbytes (VAtom (sym 0)) <> Dt.hash_lisp1 q plainbytes (VAtom (sym 0)) /\
  Dt.hash_lisp1 p plainbytes x = Dt.hash_lisp1 q plainbytes x.
Proof.
  cbv zeta.
  assert (A0 : alike (names apple beet) (names beet apple) (VAtom (sym 0)) (VAtom (sym 1))).
  { apply al_symbol; [split; reflexivity|split; reflexivity|reflexivity]. }
  assert (A1 : alike (names apple beet) (names beet apple) (VAtom (sym 1)) (VAtom (sym 0))).
  { apply al_symbol; [split; reflexivity|split; reflexivity|reflexivity]. }
  split; [|split; [reflexivity|split; [reflexivity|split; [reflexivity|split; [exact A0|split]]]]].
  - apply (al_choice _ _ _ [VAtom (sym 1); VAtom (sym 0)]); [|apply perm_swap].
    repeat constructor; assumption.
  - intros X. discriminate X.
  - reflexivity.
Qed.

(** The flonum 2^33: the code that kno_hash_lisp2 gives it is what an undefined conversion
    gives. *)
Theorem C64_flonum_refuted : exists x p ub ub',
  Dt.hash_lisp2 p ub x <> Dt.hash_lisp2 p ub' x /\ Dt.hash_lisp3 p ub x <> Dt.hash_lisp3 p ub' x.
Proof.
  exists (VNum (NReal (RFlo (S754_finite false 4503599627370496 (-19))))), no_names,
    (fun _ => 0), (fun _ => 2147483648).
  split; intros X; discriminate X.
Qed.
Print Assumptions C64_flonum_refuted.

(** ** C65: kno_hash_lisp1 gives 24 bit codes *)

(** For every value but a negative fixnum. *)
Theorem C65_range_partial : forall p decode v,
  small1 v = true -> Dt.hash_lisp1 p decode v < 2 ^ 24.
Proof.
  intros p d v H. pose proof (hash1_bound p d v H) as B. unfold Dt.MAGIC in B.
  change (2 ^ 24) with 16777216. lia.
Qed.
Print Assumptions C65_range_partial.
Example C65_case :
  small1 (VVec [VAtom (int2fix (-1)); VAtom (int2fix 7)]) = true /\
  Dt.hash_lisp1 no_names plainbytes (VVec [VAtom (int2fix (-1)); VAtom (int2fix 7)]) = 12279.
Proof. split; reflexivity. Qed.

(** The code of -1 is 2^32-1. *)
Theorem C65_negative_refuted : exists v, forall p decode, 2 ^ 24 <= Dt.hash_lisp1 p decode v.
Proof.
  exists (VAtom (int2fix (-1))). intros p d. vm_compute. discriminate.
Qed.
Print Assumptions C65_negative_refuted.

(** * Properties of the dtype codec (C03, C04, C05). *)

From Coq Require Import NArith ZArith List Bool Lia Permutation Sorted.
From Verif Require Import SortModel BytesModel BytesProofs ValueModel ValueProofs
  ChoicesModel ChoicesProofs DtypeModel DtypeProofs DtypeProofs2 DtypeProofs3 DtypeProofs4.
From Verif Require BigintProofs BigintProps.
Import ListNotations.
Local Open Scope N_scope.

(** The words used here: [storable] (DtypeProofs2) are the values the theorems about the
    round trip are for; [env_ok], [conf_ok] what is assumed of the process and of the
    order KNO_NATSORT_VALUES puts elements in; [writable], [checked] (DtypeProofs) the
    values for which the result of the writer is right; [marked] (DtypeProofs4) a value
    that is or contains the end-of-data constant or an error constant. *)

(** ** A process *)

Fixpoint name_code (s : list N) : N := match s with [] => 0 | a :: t => 2 ^ a * (2 * name_code t + 1) end.
Definition pair_code (a b : N) : N := 2 ^ a * (2 * b + 1).
Definition e0 : renv :=
  {| sym_word := fun s => name_code s * 2 ^ 32 + 2 * 2 ^ 25 + 1;
     oid_word := fun h l => pair_code h l * 4 + 3;
     r_cf := {| small_threshold := 10; big_threshold := 0; block_size := 4 |};
     restores := fun _ => false |}.
(** The default flags; then version 2 of the format with elements in reverse order. *)
Definition c0 : wconf := {| w_v2 := false; w_natsort := None; w_opaque := None; w_zero := fun _ => None |}.
Definition c1 : wconf :=
  {| w_v2 := true; w_natsort := Some (fun l => rev (seq 0 (length l))); w_opaque := None; w_zero := fun _ => None |}.

Lemma pair_code_inj a : forall b m n, 2 ^ a * (2 * m + 1) = 2 ^ b * (2 * n + 1) -> a = b /\ m = n.
Proof.
  induction a as [|a IH] using N.peano_ind; intros b m n.
  - rewrite N.pow_0_r, N.mul_1_l. destruct b as [|b _] using N.peano_ind.
    + rewrite N.pow_0_r, N.mul_1_l. lia.
    + rewrite N.pow_succ_r'. lia.
  - destruct b as [|b _] using N.peano_ind.
    + rewrite N.pow_0_r, N.pow_succ_r', N.mul_1_l. lia.
    + rewrite !N.pow_succ_r'. intros H. destruct (IH b m n); [lia|]. subst. auto.
Qed.
Lemma name_code_inj s : forall t, name_code s = name_code t -> s = t.
Proof.
  assert (P : forall a m, 0 < 2 ^ a * (2 * m + 1)).
  { intros a m. apply N.mul_pos_pos; [|lia]. apply N.neq_0_lt_0, N.pow_nonzero. discriminate. }
  induction s as [|a s IH]; intros [|b t]; cbn [name_code]; intros H; auto.
  - pose proof (P b (name_code t)). lia.
  - pose proof (P a (name_code s)). lia.
  - apply pair_code_inj in H. destruct H as [-> H]. f_equal. auto.
Qed.
Lemma e0_ok : env_ok e0.
Proof.
  unfold env_ok, e0. cbn [sym_word oid_word r_cf block_size]. split; [|split; [|split; [|split]]].
  - intros s. change (2 ^ 32) with (128 * 33554432). change (2 ^ 25) with 33554432. split.
    + replace (name_code s * (128 * 33554432) + 2 * 33554432 + 1)
        with (1 + (name_code s * (128 * 8388608) + 2 * 8388608) * 4) by lia.
      now rewrite N.mod_add by discriminate.
    + replace (name_code s * (128 * 33554432) + 2 * 33554432 + 1)
        with (1 + (name_code s * 128 + 2) * 33554432) by lia.
      rewrite N.div_add by discriminate. change (1 / 33554432) with 0.
      replace (0 + (name_code s * 128 + 2)) with (2 + name_code s * 128) by lia.
      now rewrite N.mod_add by discriminate.
  - intros s t H. apply name_code_inj. change (2 ^ 32) with 4294967296 in H. lia.
  - intros h l. rewrite N.add_comm, N.mod_add by discriminate. reflexivity.
  - intros h l h' l' H. apply (pair_code_inj h h' l l'). unfold pair_code in H. lia.
  - lia.
Qed.
Lemma c0_ok : conf_ok c0.
Proof. intros o l. discriminate. Qed.
Lemma c1_ok : conf_ok c1.
Proof. intros o l [= <-]. apply Permutation_sym, Permutation_rev. Qed.

(** A vector of a pair, a choice of three symbols, a slotmap, a large fixnum, a bigint,
    a compound, a character and a secret packet. *)
Definition big64 : B.bigint := {| B.bneg := true; B.bdig := [5; 0; 7]%Z |}.
Definition sample : dv :=
  DVec [DPair (DFix (-3)) (DStr [104; 105]);
        DChoice [DSym [97]; DSym [98]; DSym [97; 98]];
        DSlotmap [DSym [107]; DFix 5000000000; DOid 1 2; DConst 4];
        DBig big64;
        DCompound (DSym [116]) [DChar 955; DPacket true [0; 255]];
        DQChoice []; DConst 3; DRat (DFix 1) (DFix 3); DFlo 4607182418800017408].

Ltac sto_sym := apply sto_sym; [reflexivity|intros H; repeat (destruct H as [H|H]; [discriminate|]); exact H].
Lemma sample_storable c : w_zero c = w_zero c0 -> storable e0 c sample.
Proof.
  intros W.
  assert (F : forall z, (A.min_fixnum <= z <= A.max_fixnum)%Z -> storable e0 c (DFix z)) by (intros; now constructor).
  apply sto_vec; [reflexivity|].
  apply Forall_cons. { apply sto_pair; [apply F; unfold A.min_fixnum, A.max_fixnum; lia|]. now apply sto_str. }
  apply Forall_cons.
  { apply sto_choice; [reflexivity| |].
    - apply Forall_cons; [sto_sym|]. apply Forall_cons; [sto_sym|]. apply Forall_cons; [sto_sym|]. constructor.
    - split; [cbn; lia|]. split; [repeat constructor|]. split.
      + repeat apply Forall_cons; try apply Forall_nil;
          (split; [split; reflexivity|]; split; [discriminate|]; split; [discriminate|]; split; discriminate).
      + repeat apply SSorted_cons; repeat apply Forall_cons; try apply Forall_nil; try apply SSorted_nil; vm_compute; reflexivity. }
  apply Forall_cons.
  { apply (sto_slotmap _ _ _ 2); [reflexivity|reflexivity|].
    apply Forall_cons; [sto_sym|]. apply Forall_cons; [apply F; unfold A.min_fixnum, A.max_fixnum; lia|].
    apply Forall_cons; [now constructor|]. apply Forall_cons; [now constructor|]. constructor. }
  apply Forall_cons.
  { apply sto_big.
    - split; [repeat (constructor; [cbn; lia|]); constructor|]. split; intros; discriminate.
    - vm_compute. reflexivity.
    - vm_compute. reflexivity. }
  apply Forall_cons.
  { apply sto_compound; [reflexivity|sto_sym| |reflexivity|discriminate].
    apply Forall_cons; [now constructor|]. apply Forall_cons; [now constructor|]. constructor. }
  apply Forall_cons. { apply sto_qchoice; [reflexivity|constructor|now left]. }
  apply Forall_cons. { apply sto_const. lia. }
  apply Forall_cons. { apply sto_rat; apply F; unfold A.min_fixnum, A.max_fixnum; lia. }
  apply Forall_cons. { now apply sto_flo. }
  apply Forall_nil.
Qed.

Lemma storable_checked e c x : conf_ok c -> storable e c x -> checked c x.
Proof.
  intros O.
  assert (L : forall l, Forall (fun x => storable e c x -> checked c x) l -> Forall (storable e c) l ->
    fold_right and True (map (checked c) l)).
  { intros l F Sl. apply (all_of_Forall (checked c)). induction F; inversion Sl; constructor; auto. }
  induction x using dv_ind2; intros S; inversion S; subst; cbn [checked]; auto.
  - intros -> r W. match goal with H : 0 = 0 -> _ |- _ => rewrite H in W by reflexivity end. discriminate.
  - pose proof (storable_writable e c O x). split; [auto|]. split; [auto|]. split; [|auto].
    intros f ->. apply (storable_writable e c O). match goal with H : Forall _ [f] |- _ => now inversion H end.
Qed.

(** ** C05: the number returned is the number of bytes appended *)

(** For every value whose unchecked parts (the tag of a compound, its only field) can be
    written: the result is negative or exactly the number of bytes. *)
Theorem C05_length_partial : forall c x, checked c x ->
  (snd (write_dtype c x) < 0)%Z \/ snd (write_dtype c x) = Z.of_nat (length (fst (write_dtype c x))).
Proof. exact checked_spec. Qed.
Example C05_length_case : checked c0 (DVec [sample; DConst 5; sample])
  /\ snd (write_dtype c0 (DVec [sample; DConst 5; sample])) = (-1)%Z
  /\ checked c0 sample /\ snd (write_dtype c0 sample) = 133%Z.
Proof.
  assert (C : checked c0 sample) by (apply (storable_checked e0); [exact c0_ok|now apply sample_storable]).
  split; [exact (conj C (conj I (conj C I)))|]. split; [vm_compute; reflexivity|]. split; [exact C|].
  vm_compute. reflexivity.
Qed.
Print Assumptions C05_length_partial.

(** A value all parts of which have a writer is written. *)
Theorem C05_writable_partial : forall c x, writable c x -> (0 <= snd (write_dtype c x))%Z.
Proof. exact writable_spec. Qed.
Example C05_writable_case :
  let c := {| w_v2 := true; w_natsort := None; w_opaque := Some (fun _ => [35; 60; 62]); w_zero := fun _ => None |} in
  writable c (DPair (DOther 0x9f 1) (DConst 5)) /\ snd (write_dtype c (DPair (DOther 0x9f 1) (DConst 5))) = 43%Z.
Proof.
  cbv zeta. split; [|vm_compute; reflexivity]. split; [discriminate|]. right. right. discriminate.
Qed.
Print Assumptions C05_writable_partial.

(** In particular for every value that is read back. *)
Theorem C05_storable_partial : forall e c x, conf_ok c -> storable e c x ->
  snd (write_dtype c x) = Z.of_nat (length (fst (write_dtype c x))).
Proof.
  intros e c x O S. destruct (checked_spec c x) as [H|H]; [now apply (storable_checked e)| |exact H].
  pose proof (storable_pos e c O x S). lia.
Qed.
Example C05_storable_case : storable e0 c1 sample /\ snd (write_dtype c1 sample) = 112%Z
  /\ length (fst (write_dtype c1 sample)) = 112%nat.
Proof. split; [now apply sample_storable|]. vm_compute. auto. Qed.
Print Assumptions C05_storable_partial.

(** Not for every value: dtype_compound adds the -1 that the writer returned for the tag,
    and returns a positive number for an encoding without a tag. *)
Theorem C05_compound_refuted : exists c x,
  (0 <= snd (write_dtype c x))%Z /\ snd (write_dtype c x) <> Z.of_nat (length (fst (write_dtype c x))).
Proof.
  exists c0, (DCompound (DConst 5) [DFix 1; DFix 2]). vm_compute. split; [discriminate|]. discriminate.
Qed.
Print Assumptions C05_compound_refuted.
(** The same with the only field: 7 bytes of a compound without content, 6 returned. *)
Theorem C05_one_field_refuted : exists c x,
  (0 <= snd (write_dtype c x))%Z /\ snd (write_dtype c x) <> Z.of_nat (length (fst (write_dtype c x)))
  /\ exists e r, read_dtype e (fst (write_dtype c x)) = Rd r [] /\ r <> x.
Proof.
  exists c0, (DCompound (DSym [97]) [DConst 5]). split; [vm_compute; discriminate|].
  split; [vm_compute; discriminate|]. exists e0. eexists. split; [vm_compute; reflexivity|discriminate].
Qed.
Print Assumptions C05_one_field_refuted.

(** ** C04: what was written is read back *)

(** The value comes back and the reader stops exactly behind it, whatever follows. *)
Theorem C04_round_trip_partial : forall e c x rest, env_ok e -> conf_ok c -> storable e c x ->
  read_dtype e (fst (write_dtype c x) ++ rest) = Rd x rest.
Proof.
  intros e c x rest E O S. unfold read_dtype. apply (round_trip e c E O x S).
  unfold enc. rewrite app_length. lia.
Qed.
Example C04_round_trip_case : env_ok e0 /\ conf_ok c1 /\ storable e0 c1 sample
  /\ read_dtype e0 (fst (write_dtype c1 sample) ++ [9; 9]) = Rd sample [9; 9].
Proof.
  split; [exact e0_ok|]. split; [exact c1_ok|]. split; [now apply sample_storable|]. vm_compute. reflexivity.
Qed.
Print Assumptions C04_round_trip_partial.

(** A file of values: they are read back one after the other. *)
Fixpoint read_all (e : renv) (n : nat) (b : bytes) : option (list dv * bytes) :=
  match n with
  | O => Some ([], b)
  | S n => match read_dtype e b with
           | Rd v r => match read_all e n r with Some (l, r') => Some (v :: l, r') | None => None end
           | _ => None
           end
  end.
Theorem C04_stream_partial : forall e c l rest, env_ok e -> conf_ok c -> Forall (storable e c) l ->
  read_all e (length l) (flat_map (fun x => fst (write_dtype c x)) l ++ rest) = Some (l, rest).
Proof.
  intros e c l rest E O F. induction F as [|x l S _ IH]; [reflexivity|].
  cbn [flat_map length read_all]. rewrite <- app_assoc, C04_round_trip_partial by assumption. now rewrite IH.
Qed.
Example C04_stream_case : Forall (storable e0 c0) [sample; DFix 7; sample]
  /\ length (flat_map (fun x => fst (write_dtype c0 x)) [sample; DFix 7; sample]) = 271%nat.
Proof.
  split; [|vm_compute; reflexivity].
  constructor; [now apply sample_storable|]. constructor; [|constructor; [now apply sample_storable|constructor]].
  apply sto_fix. unfold A.min_fixnum, A.max_fixnum. lia.
Qed.
Print Assumptions C04_stream_partial.

(** Different values have different encodings, and none begins with another. *)
Theorem C04_prefix_free_partial : forall e c x y r s, env_ok e -> conf_ok c -> storable e c x -> storable e c y ->
  fst (write_dtype c x) ++ r = fst (write_dtype c y) ++ s -> x = y /\ r = s.
Proof.
  intros e c x y r s E O Sx Sy H.
  pose proof (C04_round_trip_partial e c x r E O Sx) as Rx.
  pose proof (C04_round_trip_partial e c y s E O Sy) as Ry. rewrite H, Ry in Rx. now inversion Rx.
Qed.
Example C04_prefix_free_case : storable e0 c0 (DStr [6; 0]) /\ storable e0 c0 (DPacket false [6; 0])
  /\ fst (write_dtype c0 (DStr [6; 0])) <> fst (write_dtype c0 (DPacket false [6; 0])).
Proof. split; [now apply sto_str|]. split; [now apply sto_packet|]. vm_compute. discriminate. Qed.
Print Assumptions C04_prefix_free_partial.

(** The reader does not depend on the flags the value was written with. *)
Theorem C04_flags_partial : forall e c c' x rest rest', env_ok e -> conf_ok c -> conf_ok c' ->
  storable e c x -> storable e c' x ->
  exists v, read_dtype e (fst (write_dtype c x) ++ rest) = Rd v rest
    /\ read_dtype e (fst (write_dtype c' x) ++ rest') = Rd v rest'.
Proof. intros. exists x. split; now apply C04_round_trip_partial. Qed.
Example C04_flags_case : storable e0 c0 sample /\ storable e0 c1 sample
  /\ fst (write_dtype c0 sample) <> fst (write_dtype c1 sample).
Proof. split; [now apply sample_storable|]. split; [now apply sample_storable|]. vm_compute. discriminate. Qed.
Print Assumptions C04_flags_partial.

(** Not for every value: the constant KNO_NEVERSEEN is written as the code of the default
    value, which cannot be written itself. *)
Theorem C04_immediates_refuted : exists e c n m, env_ok e /\ conf_ok c /\ n <> m
  /\ (0 <= snd (write_dtype c (DConst n)))%Z
  /\ read_dtype e (fst (write_dtype c (DConst n))) = Rd (DConst m) []
  /\ (snd (write_dtype c (DConst m)) < 0)%Z.
Proof.
  exists e0, c0, 20, 5. split; [exact e0_ok|]. split; [exact c0_ok|]. split; [discriminate|].
  split; [vm_compute; discriminate|]. split; vm_compute; reflexivity.
Qed.
Print Assumptions C04_immediates_refuted.
(** A compound whose only field is a vector comes back with the elements as fields. *)
Theorem C04_compound_refuted : exists e c x y, env_ok e /\ conf_ok c /\ x <> y
  /\ (0 <= snd (write_dtype c x))%Z /\ read_dtype e (fst (write_dtype c x)) = Rd y [].
Proof.
  exists e0, c0, (DCompound (DSym [97]) [DVec [DFix 1; DFix 2]]), (DCompound (DSym [97]) [DFix 1; DFix 2]).
  split; [exact e0_ok|]. split; [exact c0_ok|]. split; [discriminate|].
  split; [vm_compute; discriminate|]. vm_compute. reflexivity.
Qed.
Print Assumptions C04_compound_refuted.
(** An OID with a value in the zero pool comes back as that value. *)
Theorem C04_oid_refuted : exists e c x y, env_ok e /\ conf_ok c /\ x <> y
  /\ (0 <= snd (write_dtype c x))%Z /\ read_dtype e (fst (write_dtype c x)) = Rd y [].
Proof.
  exists e0, {| w_v2 := false; w_natsort := None; w_opaque := None;
                w_zero := fun lo => if lo =? 9 then Some (write_dtype c0 (DFix 4)) else None |}, (DOid 0 9), (DFix 4).
  split; [exact e0_ok|]. split; [intros o l; discriminate|]. split; [discriminate|].
  split; [vm_compute; discriminate|]. vm_compute. reflexivity.
Qed.
Print Assumptions C04_oid_refuted.
(** A schemap comes back as a slotmap; a bigint at the edge of the fixnums (which
    arithmetic makes, NumbersProps) as a fixnum. *)
Theorem C04_schemap_refuted : exists e c x y, env_ok e /\ conf_ok c /\ x <> y
  /\ (0 <= snd (write_dtype c x))%Z /\ read_dtype e (fst (write_dtype c x)) = Rd y [].
Proof.
  exists e0, c0, (DSchemap [DSym [97]; DFix 1]), (DSlotmap [DSym [97]; DFix 1]).
  split; [exact e0_ok|]. split; [exact c0_ok|]. split; [discriminate|].
  split; [vm_compute; discriminate|]. vm_compute. reflexivity.
Qed.
Print Assumptions C04_schemap_refuted.
Theorem C04_edge_bigint_refuted : exists e c b z, env_ok e /\ conf_ok c /\ BigintProps.normal_form b
  /\ BigintProps.value b = z
  /\ (0 <= snd (write_dtype c (DBig b)))%Z /\ read_dtype e (fst (write_dtype c (DBig b))) = Rd (DFix z) [].
Proof.
  exists e0, c0, {| B.bneg := false; B.bdig := [1073741823; 1073741823; 1]%Z |}, 2305843009213693951%Z.
  split; [exact e0_ok|]. split; [exact c0_ok|].
  split. { split; [repeat (constructor; [cbn; lia|]); constructor|]. split; intros; discriminate. }
  split; [vm_compute; reflexivity|]. split; [vm_compute; discriminate|]. vm_compute. reflexivity.
Qed.
Print Assumptions C04_edge_bigint_refuted.

(** ** C03: input that is cut off *)

(** Atomic values: every strict prefix gives end of data or an error. *)
Theorem C03_dtype_atomic_partial : forall e c x p q, storable e c x -> atomic x = true ->
  fst (write_dtype c x) = p ++ q -> q <> [] ->
  exists r, read_dtype e p = Rd D_EOD r \/ read_dtype e p = Rd D_ERROR r.
Proof. intros e c x p q S A H Q. exact (cut_atomic e c x p q (length p) S A H Q). Qed.
Example C03_dtype_atomic_case : storable e0 c0 (DStr [104; 105]) /\ atomic (DStr [104; 105]) = true
  /\ fst (write_dtype c0 (DStr [104; 105])) = [6; 0; 0; 0; 2; 104] ++ [105].
Proof. split; [now apply sto_str|]. auto. Qed.
Print Assumptions C03_dtype_atomic_partial.

(** Values without choices: whatever value is returned for a strict prefix, it is or
    contains the end-of-data constant or an error.  So it is not the value that was
    written, nor any other value that can be. *)
Theorem C03_dtype_marked_partial : forall e c x p q v r, env_ok e -> conf_ok c ->
  storable e c x -> no_choices x = true -> fst (write_dtype c x) = p ++ q -> q <> [] ->
  read_dtype e p = Rd v r -> marked v = true /\ ~ storable e c v.
Proof.
  intros e c x p q v r E O Sx N H Q R.
  assert (M : marked v = true) by (apply (cut_marked e c E O x Sx N p q (S (length p)) v r); auto).
  split; [exact M|]. clear - M. intros S. revert S M.
  assert (L : forall l, Forall (fun v => storable e c v -> marked v = true -> False) l ->
    Forall (storable e c) l -> existsb marked l = true -> False).
  { induction 1 as [|a l Ha _ IH]; intros Sl K; [discriminate|]. inversion Sl; subst. cbn [existsb] in K.
    apply orb_prop in K. tauto. }
  induction v using dv_ind2; intros S M; try discriminate M; inversion S; subst; cbn [marked] in M.
  - apply orb_prop in M. destruct M as [M|M]; [apply N.eqb_eq in M; lia|].
    apply andb_prop in M. rewrite !N.ltb_lt in M. lia.
  - apply orb_prop in M. tauto.
  - apply orb_prop in M. tauto.
  - apply orb_prop in M. tauto.
  - eauto.
  - apply orb_prop in M. destruct M; eauto.
  - eauto.
Qed.
Example C03_dtype_marked_case :
  let x := DVec [DFix 1; DPair (DFix 2) (DFix 3)] in
  let p := firstn 17 (fst (write_dtype c0 x)) in
  storable e0 c0 x /\ no_choices x = true /\ (length p < length (fst (write_dtype c0 x)))%nat
  /\ read_dtype e0 p = Rd (DVec [DFix 1; DPair (DFix 2) (DConst 7)]) [].
Proof.
  cbv zeta. split.
  { assert (F : forall z, (0 <= z <= 3)%Z -> storable e0 c0 (DFix z)).
    { intros z H. apply sto_fix. unfold A.min_fixnum, A.max_fixnum. lia. }
    apply sto_vec; [reflexivity|]. constructor; [apply F; lia|]. constructor; [|constructor].
    apply sto_pair; apply F; lia. }
  split; [reflexivity|]. split; [vm_compute; lia|]. vm_compute. reflexivity.
Qed.
Print Assumptions C03_dtype_marked_partial.

(** But a value is returned: the first half of the pair (1 . 2), with the end-of-data
    constant as the other half, and the first element of a choice. *)
Theorem C03_dtype_value_refuted : exists e c x p q v r, env_ok e /\ conf_ok c /\ storable e c x
  /\ fst (write_dtype c x) = p ++ q /\ q <> [] /\ read_dtype e p = Rd v r
  /\ abortp v = false /\ v <> D_EOD.
Proof.
  exists e0, c0, (DPair (DFix 1) (DFix 2)), [8; 3; 0; 0; 0; 1; 3], [0; 0; 0; 2]. do 2 eexists.
  split; [exact e0_ok|]. split; [exact c0_ok|]. split.
  { apply sto_pair; apply sto_fix; unfold A.min_fixnum, A.max_fixnum; lia. }
  split; [reflexivity|]. split; [discriminate|]. split; [vm_compute; reflexivity|]. split; [reflexivity|discriminate].
Qed.
Print Assumptions C03_dtype_value_refuted.
Theorem C03_dtype_choice_refuted : exists e c x p q v r, env_ok e /\ conf_ok c
  /\ fst (write_dtype c (DChoice x)) = p ++ q /\ q <> [] /\ read_dtype e p = Rd (DChoice v) r /\ In D_EOD v.
Proof.
  exists e0, c0, [DFix 1; DFix 2], [0x42; 0x80; 2; 3; 0; 0; 0; 1], [3; 0; 0; 0; 2]. do 2 eexists.
  split; [exact e0_ok|]. split; [exact c0_ok|]. split; [reflexivity|]. split; [discriminate|].
  split; [vm_compute; reflexivity|]. vm_compute. auto.
Qed.
Print Assumptions C03_dtype_choice_refuted.
(** And a cut vector of strings makes the reader free an address inside an allocated
    block. *)
Theorem C03_dtype_free_refuted : exists e c x p q, env_ok e /\ conf_ok c /\ storable e c x
  /\ fst (write_dtype c x) = p ++ q /\ q <> [] /\ read_dtype e p = RBad.
Proof.
  exists e0, c0, (DVec [DStr [104]; DStr [105]]), (firstn 16 (fst (write_dtype c0 (DVec [DStr [104]; DStr [105]])))), [105].
  split; [exact e0_ok|]. split; [exact c0_ok|]. split.
  { apply sto_vec; [reflexivity|]. repeat (constructor; [now apply sto_str|]). constructor. }
  split; [reflexivity|]. split; [discriminate|]. vm_compute. reflexivity.
Qed.
Print Assumptions C03_dtype_free_refuted.

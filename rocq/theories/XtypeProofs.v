(** * Lemmas about xtypes: choices, OIDs, tables of references. *)

From Coq Require Import NArith ZArith List Bool Lia Permutation Sorted.
From Verif Require Import SortModel BytesModel BytesProofs ValueModel ValueProofs
  ChoicesModel ChoicesProofs ChoicesProofs2 DtypeModel DtypeProofs DtypeProofs2 DtypeProofs3 XtypeModel.
From Verif Require BigintProofs BigintProofs4 BigintProps NumbersProofs.
Import ListNotations.
Local Open Scope N_scope.

(** ** Choices *)

(** Values that [vof] keeps apart. *)
Inductive solid : dv -> Prop :=
| sol_const n : n < 2 ^ 23 -> solid (DConst n)
| sol_char n : n < 2 ^ 23 -> solid (DChar n)
| sol_sym s : solid (DSym s)
| sol_fix z : (A.min_fixnum <= z <= A.max_fixnum)%Z -> solid (DFix z)
| sol_oid hi lo : solid (DOid hi lo)
| sol_big b : BigintProps.normal_form b -> (A.max_fixnum < Z.abs (BigintProps.value b))%Z -> solid (DBig b)
| sol_rat a b : solid a -> solid b -> solid (DRat a b)
| sol_str s : solid (DStr s)
| sol_packet k s : solid (DPacket k s)
| sol_pair a b : solid a -> solid b -> solid (DPair a b)
| sol_vec l : Forall solid l -> solid (DVec l)
| sol_choice l : Forall solid l -> solid (DChoice l)
| sol_qchoice l : Forall solid l -> solid (DQChoice l)
| sol_compound t l : solid t -> Forall solid l -> solid (DCompound t l).

Lemma solid_int_inj x y : is_int x = true -> is_int y = true -> solid x -> solid y ->
  int_val x = int_val y -> x = y.
Proof.
  assert (V : forall b, int_val (DBig b) = BigintProps.value b) by reflexivity.
  intros Ix Iy Sx Sy E.
  destruct x, y; try discriminate; inversion Sx; inversion Sy; subst; rewrite ?V in E.
  - f_equal. exact E.
  - cbn [int_val] in E. unfold A.min_fixnum, A.max_fixnum in *. lia.
  - cbn [int_val] in E. unfold A.min_fixnum, A.max_fixnum in *. lia.
  - f_equal. now apply BigintProps.C22_normal_form_unique.
Qed.

Section Inj.
Variable e : renv.
Hypothesis E : env_ok e.
Local Notation V := (vof e).

Lemma solid_atom x w : solid x -> V x = VAtom w ->
  match x with
  | DConst n => w mod 4 = 1 /\ (w / 2 ^ 25) mod 128 = 0 /\ n < 2 ^ 23 /\ w = imm_word 0 n
  | DChar n => w mod 4 = 1 /\ (w / 2 ^ 25) mod 128 = 1 /\ n < 2 ^ 23 /\ w = imm_word 1 n
  | DSym s => w mod 4 = 1 /\ (w / 2 ^ 25) mod 128 = 2 /\ w = sym_word e s
  | DFix z => w mod 4 = 2 /\ (A.min_fixnum <= z <= A.max_fixnum)%Z /\ w = fixword z
  | DOid hi lo => w mod 4 = 3 /\ w = oid_word e hi lo
  | _ => False
  end.
Proof.
  destruct E as (Es & Ei & Ot & Oi & _). intros S. inversion S; subst; intros [= <-].
  - destruct (imm_word_tag 0 n) as [-> ->]; auto. reflexivity.
  - destruct (imm_word_tag 1 n) as [-> ->]; auto. reflexivity.
  - destruct (Es s) as [-> ->]; auto.
  - pose proof (fixword_tag z). auto.
  - auto.
Qed.
Lemma solid_inj_atom x y w : solid x -> solid y -> V x = VAtom w -> V y = VAtom w -> x = y.
Proof.
  destruct E as (Es & Ei & Ot & Oi & _).
  intros Sx Sy Hx Hy. apply solid_atom in Hx; [|exact Sx]. apply solid_atom in Hy; [|exact Sy].
  destruct x, y; try tauto; try (exfalso; lia); f_equal.
  - apply (imm_word_inj 0); intuition congruence.
  - apply (imm_word_inj 1); intuition congruence.
  - apply Ei. intuition congruence.
  - apply fixword_inj; intuition congruence.
  - apply (Oi hi lo hi0 lo0). intuition congruence.
  - apply (Oi hi lo hi0 lo0). intuition congruence.
Qed.
Lemma solid_inj x : forall y, comparable x = true -> comparable y = true -> solid x -> solid y ->
  V x = V y -> x = y.
Proof.
  assert (Lst : forall l, Forall (fun x => forall y, comparable x = true -> comparable y = true ->
       solid x -> solid y -> V x = V y -> x = y) l ->
     forall m, forallb comparable l = true -> forallb comparable m = true ->
       Forall solid l -> Forall solid m -> map V l = map V m -> l = m).
  { induction 1 as [|a l Ha _ IH]; intros [|b m] Cl Cm Sl Sm M; try discriminate; [reflexivity|].
    cbn [forallb map] in *. apply andb_prop in Cl, Cm. inversion Sl; inversion Sm; inversion M; subst.
    f_equal; [apply Ha|apply IH]; tauto. }
  induction x using dv_ind2; intros y Cx Cy Sx Sy H0;
    try (apply solid_inj_atom with (1 := Sx) (2 := Sy) (w := match V y with VAtom w => w | _ => 0 end);
         rewrite <- H0; reflexivity);
    destruct y; try discriminate; cbn [vof] in H0; cbn [comparable] in Cx, Cy.
  - f_equal. inversion H0 as [H1]. inversion Sx; inversion Sy; subst. now apply BigintProps.C22_normal_form_unique.
  - inversion H0. inversion Sx; inversion Sy; subst. apply andb_prop in Cx, Cy.
    f_equal; apply solid_int_inj; tauto.
  - now inversion H0.
  - now inversion H0.
  - inversion H0. inversion Sx; inversion Sy; subst. apply andb_prop in Cx, Cy. f_equal; [apply IHx1|apply IHx2]; tauto.
  - inversion H0. inversion Sx; inversion Sy; subst. f_equal. now apply Lst.
  - inversion H0. inversion Sx; inversion Sy; subst. f_equal. now apply Lst.
  - inversion H0. inversion Sx; inversion Sy; subst; f_equal; now apply Lst.
  - inversion H0. inversion Sx; inversion Sy; subst. apply andb_prop in Cx, Cy. f_equal; [apply IHx|apply Lst]; tauto.
Qed.
Lemma solid_find l d : Forall solid l -> Forall (fun x => comparable x = true) l ->
  Forall elt_ok (map V l) -> In d l -> find_elt e l (V d) = Some d.
Proof.
  intros S C K I. unfold find_elt. destruct (find _ l) eqn:F.
  - apply find_some in F. destruct F as [Hd F]. f_equal.
    rewrite Forall_forall in S, C, K.
    assert (elt_ok (V d0)) as K0 by (apply K; now apply in_map).
    assert (elt_ok (V d)) as K1 by (apply K; now apply in_map).
    apply solid_inj; auto. apply cmp_eq; [apply K0|apply K1|].
    unfold is_eq in F. now destruct (cons_compare (V d0) (V d)).
  - exfalso. rewrite Forall_forall in K.
    assert (elt_ok (V d)) as [K0 _] by (apply K; now apply in_map).
    apply (find_none _ _ F) in I. rewrite cmp_refl in I by exact K0. discriminate.
Qed.
Lemma solid_finds l m : Forall solid l -> Forall (fun x => comparable x = true) l ->
  Forall elt_ok (map V l) -> incl m l -> find_elts e l (map V m) = Some m.
Proof.
  intros S C K. induction m as [|d m IH]; intros I; [reflexivity|]. cbn [map find_elts].
  rewrite solid_find; auto; [|apply I; now left]. rewrite IH; [reflexivity|].
  intros x Hx. apply I. now right.
Qed.

(** Not above the size at which big choices begin. *)
Definition not_big {T} (l : list T) : Prop :=
  big_threshold (r_cf e) = O \/ (length l <= big_threshold (r_cf e))%nat.
Lemma xmake_choice_ok l l' : Forall solid l -> choice_ok e l -> not_big l -> Permutation l' l ->
  xmake_choice e l' = Some (DChoice l).
Proof.
  intros S (L & C & K & So) Nb P. unfold xmake_choice, xinit_choice.
  assert (Forall elt_ok (map V l')) as K' by (eapply Permutation_Forall; [apply Permutation_map, Permutation_sym, P|exact K]).
  set (atomic := forallb atomicp (map V l')).
  assert (B : (1 <? length (map V l'))%nat && (0 <? big_threshold (r_cf e))%nat
              && (big_threshold (r_cf e) <? length (map V l'))%nat = false).
  { rewrite map_length, (Permutation_length P). destruct Nb as [->|Nb]; [now rewrite andb_false_r|].
    apply andb_false_intro2. apply Nat.ltb_ge. exact Nb. }
  rewrite B.
  destruct (init_choice_spec (r_cf e) (map V l') (xchoice_flags atomic)) as (s & -> & [R1 R2] & Ch).
  - apply E.
  - exact K'.
  - apply Forall_forall. intros x Hx. cbn. intros A. unfold atomic in A. rewrite forallb_forall in A. now apply A.
  - now left.
  - now left.
  - assert (selts s = map V l) as Q.
    { destruct (selts_ok s R1) as [F1 F2]. apply ssorted_unique.
      - now apply elts_vp.
      - now apply elts_vp.
      - exact F2.
      - exact So.
      - intros x. rewrite R2. split; intros H.
        + eapply Permutation_in; [apply Permutation_map, P|exact H].
        + eapply Permutation_in; [apply Permutation_map, Permutation_sym, P|exact H]. }
    destruct s as [v|a vs].
    + rewrite Q, map_length in Ch. specialize (Ch L). discriminate.
    + cbn [selts] in Q. rewrite Q. rewrite (solid_finds l' l).
      * reflexivity.
      * eapply Permutation_Forall; [apply Permutation_sym, P|exact S].
      * eapply Permutation_Forall; [apply Permutation_sym, P|exact C].
      * exact K'.
      * intros x. apply Permutation_in. now apply Permutation_sym.
Qed.
End Inj.

(** ** OIDs *)

(** The table of bases: multiples of 2^20, all different. *)
Definition bases_ok (l : list N) : Prop := NoDup l /\ Forall (fun b => b mod 2 ^ 20 = 0 /\ b < 2 ^ 64) l.

Lemma position_nth x l i : position x l = Some i -> nth_error l i = Some x.
Proof.
  revert i. induction l as [|a l IH]; intros i; cbn [position]; [discriminate|].
  destruct (N.eqb_spec a x) as [->|].
  - intros [= <-]. reflexivity.
  - destruct (position x l); [|discriminate]. intros [= <-]. now apply IH.
Qed.
Lemma nth_position x l i : NoDup l -> nth_error l i = Some x -> position x l = Some i.
Proof.
  intros N. revert i. induction N as [|a l Ha _ IH]; intros [|i] H; try discriminate; cbn [position nth_error] in *.
  - inversion H; subst. now rewrite N.eqb_refl.
  - destruct (N.eqb_spec a x) as [->|]; [exfalso; apply Ha; eapply nth_error_In; eauto|].
    now rewrite (IH i H).
Qed.
Lemma addr_split hi lo : hi < 2 ^ 32 -> lo < 2 ^ 32 -> oid_addr64 hi lo = hi * 2 ^ 32 + lo.
Proof.
  intros Hh Hl. unfold oid_addr64. rewrite (lor_add _ 32).
  - rewrite N.shiftl_mul_pow2. reflexivity.
  - rewrite N.shiftl_mul_pow2. apply N.mod_mul. discriminate.
  - exact Hl.
Qed.
Lemma off_mod lo : oid_offset lo = lo mod 2 ^ 20.
Proof. unfold oid_offset. change 0xFFFFF with (N.ones 20). apply N.land_ones. Qed.
Lemma ldiff_off lo : N.ldiff lo 0xFFFFF = lo - lo mod 2 ^ 20.
Proof.
  change 0xFFFFF with (N.ones 20). rewrite N.ldiff_ones_r, N.shiftr_div_pow2, N.shiftl_mul_pow2.
  pose proof (N.div_mod lo (2 ^ 20)). change (2 ^ 20) with 1048576 in *. lia.
Qed.
Lemma addr_parts hi lo : hi < 2 ^ 32 -> lo < 2 ^ 32 ->
  N.shiftr (hi * 2 ^ 32 + lo) 32 = hi /\ N.land (hi * 2 ^ 32 + lo) 0xFFFFFFFF = lo.
Proof.
  intros Hh Hl. rewrite N.shiftr_div_pow2. change 0xFFFFFFFF with (N.ones 32). rewrite N.land_ones.
  change (2 ^ 32) with 4294967296 in *. split.
  - rewrite N.div_add_l by discriminate. rewrite N.div_small by exact Hl. lia.
  - rewrite N.add_comm, N.mod_add by discriminate. now apply N.mod_small.
Qed.
Lemma base_addr hi lo : hi < 2 ^ 32 -> lo < 2 ^ 32 ->
  oid_addr64 hi (N.ldiff lo 0xFFFFF) + oid_offset lo = hi * 2 ^ 32 + lo.
Proof.
  intros Hh Hl. rewrite ldiff_off, off_mod.
  pose proof (N.mod_le lo (2 ^ 20) ltac:(discriminate)).
  rewrite addr_split by (auto; lia). lia.
Qed.
Section Oids.
Variable e : xenv.
Hypothesis B : bases_ok (x_bases e).
Lemma oid_at_base hi lo id : hi < 2 ^ 32 -> lo < 2 ^ 32 -> oid_base_id e hi lo = Some id ->
  oid_at e id (oid_offset lo) = Some (DOid hi lo).
Proof.
  intros Hh Hl H. apply position_nth in H. unfold oid_at. rewrite H.
  rewrite base_addr by assumption. destruct (addr_parts hi lo) as [-> ->]; auto.
Qed.
(** The OID at the beginning of a base has that base. *)
Lemma base_of_base id hi lo : oid_at e id 0 = Some (DOid hi lo) -> oid_base_id e hi lo = Some id.
Proof.
  destruct B as [Nd F]. unfold oid_at, oid_base_id. destruct (nth_error (x_bases e) id) as [b|] eqn:Hb; [|discriminate].
  intros [= <- <-]. rewrite N.add_0_r.
  assert (b mod 2 ^ 20 = 0 /\ b < 2 ^ 64) as [M L] by (rewrite Forall_forall in F; apply F; eapply nth_error_In; eauto).
  apply nth_position; [exact Nd|]. rewrite Hb. f_equal.
  change 0xFFFFFFFF with (N.ones 32). rewrite N.land_ones, N.shiftr_div_pow2.
  assert (D : (b mod 2 ^ 32) mod 2 ^ 20 = 0).
  { change (2 ^ 32) with (2 ^ 20 * 2 ^ 12). rewrite N.mod_mul_r by discriminate.
    rewrite N.mul_comm, N.mod_add by discriminate. rewrite N.mod_mod by discriminate. exact M. }
  rewrite ldiff_off, D, N.sub_0_r.
  pose proof (N.div_mod b (2 ^ 32) ltac:(discriminate)) as Q.
  rewrite addr_split.
  - lia.
  - change (2 ^ 64) with (2 ^ 32 * 2 ^ 32) in L. apply N.div_lt_upper_bound; [discriminate|exact L].
  - apply N.mod_lt. discriminate.
Qed.
Lemma oid_at_key id o x : oid_at e id o = Some x -> keyp x = true /\ exists hi lo, x = DOid hi lo.
Proof.
  unfold oid_at. destruct (nth_error _ _); [|discriminate]. intros [= <-]. split; [reflexivity|eauto].
Qed.
End Oids.

(** ** Tables of references *)

(** A table that was filled by kno_init_xrefs and kno_add_xtype_ref: what is looked up is
    at its place, the vector is long enough and can grow. *)
Definition refs_ok (t : xrefs) : Prop :=
  r_bad t = false
  /\ (r_read_only t = true \/ 0 < r_len t)
  /\ (N.of_nat (length (r_refs t)) <= r_len t)
  /\ (forall k i, lookup k (r_lookup t) = Some i -> keyp k = true /\ nth_error (r_refs t) (N.to_nat i) = Some k).
(** [t'] is [t] with entries added. *)
Definition grown (t t' : xrefs) : Prop :=
  (exists s, r_refs t' = r_refs t ++ s) /\ (r_read_only t = true -> t' = t).

Lemma bytes_eqb_eq a : forall b, bytes_eqb a b = true <-> a = b.
Proof.
  induction a as [|x a IH]; intros [|y b]; cbn [bytes_eqb]; try (split; [discriminate|discriminate]); [tauto|].
  rewrite andb_true_iff, N.eqb_eq, IH. split; [intros [-> ->]; reflexivity|intros [= -> ->]; auto].
Qed.
Lemma key_eqb_eq x y : key_eqb x y = true -> x = y /\ keyp x = true.
Proof.
  destruct x, y; cbn [key_eqb]; try discriminate.
  - intros H. apply bytes_eqb_eq in H. subst. auto.
  - intros H. apply andb_prop in H. rewrite !N.eqb_eq in H. destruct H as [-> ->]. auto.
Qed.
Lemma key_eqb_refl x : keyp x = true -> key_eqb x x = true.
Proof.
  destruct x; try discriminate; intros _; cbn [key_eqb]; [now apply bytes_eqb_eq|].
  now rewrite !N.eqb_refl.
Qed.

Lemma grown_refl t : grown t t.
Proof. split; [exists []; now rewrite app_nil_r|auto]. Qed.
Lemma grown_trans a b d : grown a b -> grown b d -> grown a d.
Proof.
  intros [[s Hs] Ha] [[s' Hs'] Hb]. split.
  - exists (s ++ s'). now rewrite Hs', Hs, app_assoc.
  - intros R. pose proof (Ha R). subst b. now apply Hb.
Qed.
Lemma push_ok x t : refs_ok t -> keyp x = true -> r_read_only t = false -> N.of_nat (length (r_refs t)) < r_len t ->
  refs_ok (push_ref x t) /\ grown t (push_ref x t)
  /\ nth_error (r_refs (push_ref x t)) (N.to_nat (llen (r_refs t))) = Some x.
Proof.
  intros (Hb & Hl & Hn & Hk) K R L.
  assert (Nt : nth_error (r_refs t ++ [x]) (N.to_nat (llen (r_refs t))) = Some x).
  { rewrite llen_nat, nth_error_app2, Nat.sub_diag by lia. reflexivity. }
  split; [|split].
  - unfold refs_ok. cbn [push_ref r_bad r_read_only r_len r_refs r_lookup]. repeat split.
    + rewrite Hb. cbn [orb]. apply N.leb_gt. exact L.
    + right. lia.
    + rewrite app_length. cbn [length]. lia.
    + cbn [lookup] in H. destruct (key_eqb x k) eqn:Q.
      * apply key_eqb_eq in Q. destruct Q as [<- Q]. exact Q.
      * now apply (Hk k i).
    + cbn [lookup] in H. destruct (key_eqb x k) eqn:Q.
      * apply key_eqb_eq in Q. destruct Q as [<- Q]. inversion H; subst. exact Nt.
      * apply Hk in H. destruct H as [_ H]. rewrite nth_error_app1; [exact H|].
        apply nth_error_Some. congruence.
  - split; [exists [x]; reflexivity|congruence].
  - exact Nt.
Qed.

Lemma xtype_ref_ok x t : refs_ok t -> keyp x = true ->
  match xtype_ref x t with
  | (o, t') => refs_ok t' /\ grown t t' /\
      match o with Some i => nth_error (r_refs t') (N.to_nat i) = Some x | None => True end
  end.
Proof.
  intros Ok K. unfold xtype_ref, add_xtype_ref. rewrite K. cbn [negb].
  destruct (lookup x (r_lookup t)) as [i|] eqn:Lk.
  { split; [exact Ok|]. split; [apply grown_refl|]. apply Ok in Lk. tauto. }
  destruct (match x with DOid _ _ => r_add_oids t | _ => r_add_syms t end);
    [|split; [exact Ok|split; [apply grown_refl|exact I]]].
  destruct (r_read_only t) eqn:R; [split; [exact Ok|split; [apply grown_refl|exact I]]|].
  assert (L0 : 0 < r_len t) by (destruct Ok as (_ & [H|H] & _); [congruence|exact H]).
  destruct (N.leb_spec (r_len t) (llen (r_refs t))) as [Le|Gt].
  - destruct ((0 <=? r_max t)%Z && _) eqn:M.
    + destruct Ok as (Hb & Hl & Hn & Hk). split; [|split; [|exact I]].
      * unfold refs_ok. cbn [set_read_only r_bad r_read_only r_len r_refs r_lookup]. auto.
      * split; [exists []; cbn [set_read_only r_refs]; now rewrite app_nil_r|congruence].
    + set (n := r_len t + _).
      assert (Ln : r_len t < n).
      { unfold n, XTYPE_REFS_DELTA_MAX. destruct (N.ltb_spec 4096 (r_len t)); lia. }
      destruct (N.eqb_spec n 0); [lia|].
      assert (Ok' : refs_ok (set_len n t)).
      { destruct Ok as (Hb & Hl & Hn & Hk). unfold refs_ok. cbn [set_len r_bad r_read_only r_len r_refs r_lookup].
        split; [exact Hb|]. split; [right; lia|]. split; [lia|exact Hk]. }
      destruct (push_ok x (set_len n t) Ok' K R) as (P1 & P2 & P3).
      { cbn [set_len r_refs r_len]. destruct Ok as (_ & _ & Hn & _). lia. }
      split; [exact P1|]. split; [|exact P3].
      destruct P2 as [[s Hs] _]. split; [exists s; exact Hs|congruence].
  - apply push_ok; auto.
Qed.
Lemma xtype_ref_bound x t i t' : refs_ok t -> keyp x = true -> xtype_ref x t = (Some i, t') ->
  nth_error (r_refs t') (N.to_nat i) = Some x /\ i < N.of_nat (length (r_refs t')).
Proof.
  intros Ok K H. pose proof (xtype_ref_ok x t Ok K) as P. rewrite H in P. destruct P as (_ & _ & P).
  split; [exact P|]. assert (N.to_nat i < length (r_refs t'))%nat by (apply nth_error_Some; congruence). lia.
Qed.

(** kno_init_xrefs. *)
Lemma fill_lookup l : forall i t k j, lookup k (fill i l t) = Some j ->
  (keyp k = true /\ i <= j /\ nth_error l (N.to_nat (j - i)) = Some k) \/ lookup k t = Some j.
Proof.
  induction l as [|x l IH]; intros i t k j H; [now right|]. cbn [fill] in H. apply IH in H.
  destruct H as [(K & Le & H)|H].
  - left. split; [exact K|]. split; [lia|]. replace (N.to_nat (j - i)) with (S (N.to_nat (j - (i + 1)))) by lia. exact H.
  - destruct (keyp x) eqn:Kx; [|now right]. cbn [lookup] in H. destruct (key_eqb x k) eqn:Q; [|now right].
    apply key_eqb_eq in Q. destruct Q as [<- Q]. inversion H; subst. left. split; [exact Q|]. split; [lia|].
    rewrite N.sub_diag. reflexivity.
Qed.
Lemma init_ok old flags len max elts : N.of_nat (length elts) <= len ->
  0 < len \/ match flags with Some (ro, _, _) => ro = true | None => False end ->
  refs_ok (init_xrefs old flags len max elts).
Proof.
  intros Hn Hl. unfold init_xrefs. destruct flags as [[[ro oids] syms]|]; unfold refs_ok;
    cbn [r_bad r_read_only r_len r_refs r_lookup]; (split; [reflexivity|]); (split; [tauto|]); (split; [exact Hn|]);
    intros k i H; apply fill_lookup in H; rewrite N.sub_0_r in H; cbn [lookup] in H; destruct H as [(K & _ & H)|H]; try discriminate; auto.
Qed.

(** * Proofs about object identifiers. *)
From Coq Require Import Lia Permutation.
From Verif Require Import BytesModel BytesProofs OidsModel.
From Verif Require Export OidText.
Local Open Scope N_scope.
Opaque N.land N.lor N.lxor N.shiftr N.shiftl N.mul N.modulo N.div.

(** ** Bit arithmetic *)
Definition base_of (a : N) : N := a / 2^20 * 2^20.
Lemma base_offset a : a < 2^64 ->
  set_lo a (N.land (oid_lo a) (N.lxor OID_OFFSET_MASK 0xFFFFFFFF)) = base_of a.
Proof.
  intros H. apply N.bits_inj. intros i. unfold set_lo, base_of, oid_lo.
  rewrite <- N.shiftl_mul_pow2, <- N.shiftr_div_pow2.
  change 0xFFFFFFFF00000000 with (N.ldiff (N.ones 64) (N.ones 32)).
  change OID_OFFSET_MASK with (N.ones 20). change 0xFFFFFFFF with (N.ones 32).
  rewrite N.lor_spec, !N.land_spec, N.lxor_spec, N.ldiff_spec.
  assert (T : forall m, N.testbit (N.ones m) i = (i <? m)).
  { intros m. destruct (N.ltb_spec i m); [now apply N.ones_spec_low|now apply N.ones_spec_high]. }
  rewrite !T.
  assert (Hhi : 64 <= i -> N.testbit a i = false).
  { intros Hi. destruct (N.eq_dec a 0) as [->|]; [now rewrite N.bits_0|].
    apply N.bits_above_log2. assert (N.log2 a < 64) by (apply N.log2_lt_pow2; lia). lia. }
  destruct (N.ltb_spec i 20) as [L20|L20].
  - rewrite N.shiftl_spec_low by lia.
    destruct (N.ltb_spec i 64), (N.ltb_spec i 32); try (exfalso; lia). destruct (N.testbit a i); reflexivity.
  - rewrite N.shiftl_spec_high', N.shiftr_spec' by lia. replace (i - 20 + 20) with i by lia.
    destruct (N.ltb_spec i 32), (N.ltb_spec i 64); try (exfalso; lia).
    + destruct (N.testbit a i); reflexivity.
    + destruct (N.testbit a i); reflexivity.
    + rewrite Hhi by lia. reflexivity.
Qed.
Lemma offset_mod a : N.land (oid_lo a) OID_OFFSET_MASK = a mod 2^20.
Proof.
  rewrite lo_mod. change OID_OFFSET_MASK with (N.ones 20). rewrite N.land_ones.
  replace (2^32) with (2^20 * 2^12) by reflexivity.
  rewrite N.mod_mul_r by discriminate. rewrite N.mul_comm, N.mod_add by discriminate.
  apply N.mod_mod. discriminate.
Qed.

Lemma construct_small b o : b < 65536 -> o < 2^20 -> construct_oid (Some b) o = o * 2^18 + b * 4 + 3.
Proof.
  intros Hb Ho. unfold construct_oid, OID_BUCKET_WIDTH. cbn iota.
  rewrite !N.shiftl_mul_pow2, !u64_mod.
  change (16 + 2) with 18. change (2^2) with 4. change (2^18) with 262144. change (2^20) with 1048576 in Ho.
  change (2^64) with 18446744073709551616.
  rewrite !N.mod_small by lia.
  rewrite (N.lor_comm (b*4)), (lor_add (o*262144) 18 (b*4)).
  - apply (lor_add _ 2 3); [|reflexivity]. change (2^2) with 4.
    replace (o * 262144 + b * 4) with ((o * 65536 + b) * 4) by lia. apply N.mod_mul. discriminate.
  - apply N.mod_mul. discriminate.
  - change (2^18) with 262144. lia.
Qed.
Lemma addr_fields b o : b < 65536 ->
  N.land (N.shiftr (o * 2^18 + b * 4 + 3) 2) OID_BUCKET_MASK = b /\
  N.shiftr (o * 2^18 + b * 4 + 3) (OID_BUCKET_WIDTH + 2) = o.
Proof.
  intros Hb. rewrite !N.shiftr_div_pow2. change (OID_BUCKET_WIDTH + 2) with 18.
  change OID_BUCKET_MASK with (N.ones 16). rewrite N.land_ones.
  change (2^2) with 4. change (2^16) with 65536. change (2^18) with 262144. split.
  - replace (o * 262144 + b * 4 + 3) with (3 + (o * 65536 + b) * 4) by lia.
    rewrite N.div_add by discriminate. change (3/4) with 0. rewrite N.add_0_l, N.add_comm, N.mod_add by discriminate.
    now apply N.mod_small.
  - replace (o * 262144 + b * 4 + 3) with ((b * 4 + 3) + o * 262144) by lia.
    rewrite N.div_add by discriminate. rewrite N.div_small by lia. lia.
Qed.

(** ** Linear probing *)
Notation L := oid_buckets_len.
Definition at_ (init i : N) : N := (init + i) mod L.
Lemma L_pos : L <> 0. Proof. discriminate. Qed.
Lemma init_lt b : init_probe b < L.
Proof. apply N.mod_lt. discriminate. Qed.
Lemma at_0 p : p < L -> at_ p 0 = p.
Proof. intros. unfold at_. rewrite N.add_0_r. now apply N.mod_small. Qed.
Lemma at_lt p i : at_ p i < L.
Proof. apply N.mod_lt. discriminate. Qed.
Lemma at_cases p i : p < L -> i < L -> at_ p i = if p + i <? L then p + i else p + i - L.
Proof.
  intros Hp Hi. unfold at_. destruct (N.ltb_spec (p + i) L).
  - now apply N.mod_small.
  - replace (p + i) with ((p + i - L) + 1 * L) at 1 by lia. rewrite N.mod_add by discriminate.
    apply N.mod_small. lia.
Qed.
Lemma at_next p i : p < L -> i + 1 < L -> next_probe (at_ p i) = at_ p (i + 1) /\ next_probe (at_ p i) <> p.
Proof.
  intros Hp Hi. unfold next_probe. rewrite (at_cases p (i+1)), (at_cases p i) by lia.
  destruct (N.ltb_spec (p + i) L), (N.ltb_spec (p + (i + 1)) L); try lia;
  match goal with |- context [L <=? ?x] => destruct (N.leb_spec L x) end; try lia.
Qed.
Lemma at_last p : p < L -> next_probe (at_ p (L - 1)) = p.
Proof.
  intros Hp. unfold next_probe. rewrite (at_cases p (L-1)) by lia.
  destruct (N.ltb_spec (p + (L - 1)) L);
  match goal with |- context [L <=? ?x] => destruct (N.leb_spec L x) end; lia.
Qed.
Lemma at_inj p i j : p < L -> i < L -> j < L -> at_ p i = at_ p j -> i = j.
Proof.
  intros Hp Hi Hj. rewrite !at_cases by auto.
  destruct (N.ltb_spec (p + i) L), (N.ltb_spec (p + j) L); lia.
Qed.

(** [stop t base i]: the i-th probe ends the search. *)
Definition other (t : oidtab) (base q : N) : Prop :=
  exists b k, buckets t q = Some (b, k) /\ b <> base.

Lemma find_run t base p i : p < L -> i < L ->
  (forall j, j < i -> other t base (at_ p j)) ->
  forall fuel k, k <= i -> i <= k + N.of_nat fuel ->
  (forall no, buckets t (at_ p i) = Some (base, no) -> find_loop fuel t base p (at_ p k) = Some (Some no)) /\
  (buckets t (at_ p i) = None -> find_loop fuel t base p (at_ p k) = Some None /\
                                 add_loop fuel t base p (at_ p k) = Some (inl (at_ p i))).
Proof.
  intros Hp Hi Ho. induction fuel as [|f IH]; intros k Hk Hf; cbn [find_loop add_loop].
  - assert (k = i) by lia. subst k. split.
    + intros no ->. now rewrite N.eqb_refl.
    + intros ->. auto.
  - destruct (N.eq_dec k i) as [->|Hne].
    + split.
      * intros no ->. now rewrite N.eqb_refl.
      * intros ->. auto.
    + destruct (Ho k ltac:(lia)) as (b & n & Eb & Hb). rewrite Eb.
      destruct (N.eqb_spec base b); [congruence|].
      destruct (at_next p k Hp ltac:(lia)) as [E1 E2].
      destruct (N.eqb_spec (next_probe (at_ p k)) p); [congruence|]. rewrite E1.
      apply IH; lia.
Qed.

(** The table holds the bases [l], numbered in order. *)
Record tab_ok (t : oidtab) (l : list N) : Prop := {
  to_n : n_base t = N.of_nat (length l);
  to_nodup : NoDup l;
  to_has : forall k b, nth_error l k = Some b ->
     bases t (N.of_nat k) = b /\
     exists i, i < L /\ buckets t (at_ (init_probe b) i) = Some (b, N.of_nat k) /\
               forall j, j < i -> other t b (at_ (init_probe b) j);
  to_only : forall q b k, q < L -> buckets t q = Some (b, k) -> nth_error l (N.to_nat k) = Some b;
  to_inj : forall q q' b b' k, q < L -> q' < L -> buckets t q = Some (b, k) -> buckets t q' = Some (b', k) -> q = q'
}.
Lemma tab_init : tab_ok oids_init [].
Proof.
  constructor; simpl; try discriminate; auto.
  - constructor.
  - intros [|k] b H; discriminate.
Qed.

Lemma map_nodup_in {A B} (f : A -> B) l :
  (forall x y, In x l -> In y l -> f x = f y -> x = y) -> NoDup l -> NoDup (map f l).
Proof.
  intros Hf. induction 1 as [|a l Ha _ IH]; simpl; constructor.
  - intros Hin. apply in_map_iff in Hin. destruct Hin as (x & E & Hx).
    apply Hf in E; [|now right|now left]. now subst.
  - apply IH. intros x y Hx Hy. apply Hf; now right.
Qed.
(** Some slot is free. *)
Lemma free_slot t l p : tab_ok t l -> N.of_nat (length l) < L -> p < L ->
  exists i, i < L /\ buckets t (at_ p i) = None.
Proof.
  intros T Hl Hp.
  set (ks := map (fun i => match buckets t (at_ p (N.of_nat i)) with Some (_, k) => N.to_nat k | None => O end)
                 (seq 0 (N.to_nat L))).
  assert (D : (exists i, i < L /\ buckets t (at_ p i) = None) \/
              forall i, i < L -> buckets t (at_ p i) <> None).
  { assert (G : forall n, N.of_nat n <= L -> (exists i, i < N.of_nat n /\ buckets t (at_ p i) = None) \/
              forall i, i < N.of_nat n -> buckets t (at_ p i) <> None).
    { induction n as [|n IH]; intros Hn; [right; intros; lia|].
      destruct IH as [(i & ? & ?)|IH]; [lia|left; exists i; split; auto; lia|].
      destruct (buckets t (at_ p (N.of_nat n))) eqn:E; [|left; exists (N.of_nat n); split; auto; lia].
      right. intros i Hi. destruct (N.eq_dec i (N.of_nat n)) as [->|]; [congruence|]. apply IH. lia. }
    destruct (G (N.to_nat L)) as [(i & ? & ?)|G']; [lia|left; exists i; split; auto; lia|].
    right. intros i Hi. apply G'. lia. }
  destruct D as [|D]; auto. exfalso.
  assert (ND : NoDup ks).
  { apply map_nodup_in; [|apply seq_NoDup].
    intros i j Hi Hj E. apply in_seq in Hi, Hj.
    pose proof (D (N.of_nat i) ltac:(lia)) as Di. pose proof (D (N.of_nat j) ltac:(lia)) as Dj.
    destruct (buckets t (at_ p (N.of_nat i))) as [[bi ki]|] eqn:Ei; [|congruence].
    destruct (buckets t (at_ p (N.of_nat j))) as [[bj kj]|] eqn:Ej; [|congruence].
    assert (ki = kj) by lia. subst kj.
    assert (Eq : at_ p (N.of_nat i) = at_ p (N.of_nat j)) by (eapply (to_inj t l T); eauto using at_lt).
    apply at_inj in Eq; lia. }
  assert (IN : incl ks (seq 0 (length l))).
  { intros k Hk. apply in_map_iff in Hk. destruct Hk as (i & <- & Hi). apply in_seq in Hi.
    pose proof (D (N.of_nat i) ltac:(lia)) as Di.
    destruct (buckets t (at_ p (N.of_nat i))) as [[bi ki]|] eqn:Ei; [|congruence].
    apply in_seq. split; [lia|]. apply (to_only t l T) in Ei; [|apply at_lt].
    simpl. apply nth_error_Some. congruence. }
  apply NoDup_incl_length in IN; auto. unfold ks in IN. rewrite map_length, !seq_length in IN. lia.
Qed.
(** The first free slot. *)
Lemma first_free t l p : tab_ok t l -> N.of_nat (length l) < L -> p < L ->
  exists i, i < L /\ buckets t (at_ p i) = None /\ forall j, j < i -> buckets t (at_ p j) <> None.
Proof.
  intros T Hl Hp. destruct (free_slot t l p T Hl Hp) as (i & Hi & E).
  assert (G : forall n i, N.of_nat n = i -> i < L -> buckets t (at_ p i) = None ->
     exists i, i < L /\ buckets t (at_ p i) = None /\ forall j, j < i -> buckets t (at_ p j) <> None).
  { clear. intros n. induction n as [n IH] using (well_founded_induction Wf_nat.lt_wf). intros i Ei Hi E.
    assert (D : (exists j, j < i /\ buckets t (at_ p j) = None) \/ forall j, j < i -> buckets t (at_ p j) <> None).
    { clear -Ei. assert (G : forall m, (exists j, j < N.of_nat m /\ buckets t (at_ p j) = None) \/
         forall j, j < N.of_nat m -> buckets t (at_ p j) <> None).
      { induction m as [|m IH]; [right; intros; lia|].
        destruct IH as [(j & ? & ?)|IH]; [left; exists j; split; auto; lia|].
        destruct (buckets t (at_ p (N.of_nat m))) eqn:E; [|left; exists (N.of_nat m); split; auto; lia].
        right. intros j Hj. destruct (N.eq_dec j (N.of_nat m)) as [->|]; [congruence|]. apply IH. lia. }
      destruct (G n) as [(j & ? & ?)|G']; [left; exists j; split; auto; lia|right; intros; apply G'; lia]. }
    destruct D as [(j & Hj & Ej)|D]; [|exists i; auto].
    apply (IH (N.to_nat j)) with (i := j); auto; lia. }
  exact (G (N.to_nat i) i (N2Nat.id i) Hi E).
Qed.

Lemma find_present t l k b : tab_ok t l -> nth_error l k = Some b -> find_base_oid t b = Some (Some (N.of_nat k)).
Proof.
  intros T Hk. destruct (to_has t l T k b Hk) as (_ & i & Hi & E & Ho).
  unfold find_base_oid. pose proof (init_lt b) as Hp.
  destruct (find_run t b (init_probe b) i Hp Hi Ho probe_fuel 0) as [H _]; try lia.
  { unfold probe_fuel. lia. }
  rewrite at_0 in H by auto. now apply H.
Qed.
Lemma find_absent t l b : tab_ok t l -> N.of_nat (length l) < L -> ~ In b l ->
  find_base_oid t b = Some None /\
  exists i, i < L /\ add_loop probe_fuel t b (init_probe b) (init_probe b) = Some (inl (at_ (init_probe b) i)) /\
    buckets t (at_ (init_probe b) i) = None /\ forall j, j < i -> other t b (at_ (init_probe b) j).
Proof.
  intros T Hl Hn. pose proof (init_lt b) as Hp.
  destruct (first_free t l (init_probe b) T Hl Hp) as (i & Hi & E & Ho).
  assert (Ho' : forall j, j < i -> other t b (at_ (init_probe b) j)).
  { intros j Hj. specialize (Ho j Hj). destruct (buckets t (at_ (init_probe b) j)) as [[b' k]|] eqn:Eb; [|congruence].
    exists b', k. split; auto. intros ->. apply Hn. apply (to_only t l T) in Eb; [|apply at_lt].
    eapply nth_error_In; eauto. }
  unfold find_base_oid.
  destruct (find_run t b (init_probe b) i Hp Hi Ho' probe_fuel 0) as [_ H]; try lia.
  { unfold probe_fuel. lia. }
  rewrite at_0 in H by auto. destruct (H E) as [H1 H2]. split; auto.
  exists i. auto.
Qed.

Lemma add_spec t l b : tab_ok t l -> (N.of_nat (length l) <= N_OID_BUCKETS) ->
  (exists k, nth_error l k = Some b /\ add_base_oid_index t b = Some (Some (N.of_nat k), t)) \/
  (~ In b l /\ N.of_nat (length l) < N_OID_BUCKETS /\
   exists t', add_base_oid_index t b = Some (Some (N.of_nat (length l)), t') /\ tab_ok t' (l ++ [b])) \/
  (~ In b l /\ N.of_nat (length l) = N_OID_BUCKETS /\ add_base_oid_index t b = Some (None, t)).
Proof.
  intros T Hl. destruct (in_dec N.eq_dec b l) as [Hin|Hn].
  { left. apply In_nth_error in Hin. destruct Hin as [k Hk]. exists k. split; auto.
    unfold add_base_oid_index. now rewrite (find_present t l k b). }
  right. assert (HL : N.of_nat (length l) < L) by (unfold N_OID_BUCKETS, oid_buckets_len in *; lia).
  destruct (find_absent t l b T HL Hn) as (E & i & Hi & Ea & Ef & Ho).
  unfold add_base_oid_index. rewrite E, (to_n t l T).
  destruct (N.leb_spec N_OID_BUCKETS (N.of_nat (length l))) as [Hge|Hlt].
  { right. split; auto. split; auto. lia. }
  left. split; auto. split; auto.
  set (t1 := {| n_base := N.of_nat (length l) + 1; buckets := buckets t; bases := bases t |}).
  assert (Ea' : add_loop probe_fuel t1 b (init_probe b) (init_probe b) = Some (inl (at_ (init_probe b) i))).
  { rewrite <- Ea. generalize (init_probe b) at 2 4. generalize probe_fuel.
    induction n as [|n IH]; intros p; cbn [add_loop]; change (buckets t1) with (buckets t);
    destruct (buckets t p) as [[b' k]|]; auto; destruct (b =? b'); auto;
    destruct (next_probe p =? init_probe b); auto. }
  rewrite Ea'. eexists. split; [reflexivity|].
  set (p := at_ (init_probe b) i) in *.
  assert (Hpl : p < L) by apply at_lt.
  assert (Hoth : forall c q, other t c q ->
     other {| n_base := N.of_nat (length l) + 1;
              buckets := fun q => if q =? p then Some (b, N.of_nat (length l)) else buckets t q;
              bases := fun k => if k =? N.of_nat (length l) then b else bases t k |} c q).
  { intros c q (b' & k & Eb & Hb). exists b', k. split; auto. cbn [buckets].
    destruct (N.eqb_spec q p); auto. congruence. }
  constructor; cbn [n_base buckets bases].
  - rewrite app_length. simpl. lia.
  - apply (Permutation_NoDup (l := b :: l)).
    + apply Permutation_cons_append.
    + constructor; auto. apply (to_nodup t l T).
  - intros k c Hk. destruct (Nat.lt_ge_cases k (length l)) as [Hkl|Hkl].
    + rewrite nth_error_app1 in Hk by auto. destruct (to_has t l T k c Hk) as (H1 & i' & H2 & H3 & H4).
      split.
      * destruct (N.eqb_spec (N.of_nat k) (N.of_nat (length l))); auto. lia.
      * exists i'. split; auto. split.
        -- destruct (N.eqb_spec (at_ (init_probe c) i') p) as [e|]; auto. rewrite e in H3. congruence.
        -- intros j Hj. apply Hoth. auto.
    + rewrite nth_error_app2 in Hk by auto.
      destruct (k - length l)%nat as [|m] eqn:Em; [|destruct m; discriminate].
      injection Hk as <-. assert (k = length l) by lia. subst k. split; [now rewrite N.eqb_refl|].
      exists i. split; auto. split; [now rewrite N.eqb_refl|]. intros j Hj. apply Hoth. auto.
  - intros q c k Hq. destruct (N.eqb_spec q p).
    + intros Eq. injection Eq as <- <-. rewrite Nat2N.id, nth_error_app2, Nat.sub_diag by lia. reflexivity.
    + intros Eq. apply (to_only t l T) in Eq; auto. rewrite nth_error_app1; auto.
      apply nth_error_Some. congruence.
  - assert (Hlt' : forall q c, q < L -> buckets t q <> Some (c, N.of_nat (length l))).
    { intros q c Hq E'. apply (to_only t l T) in E'; auto. rewrite Nat2N.id in E'.
      assert (length l < length l)%nat by (apply nth_error_Some; congruence). lia. }
    intros q q' c c' k Hq Hq'. destruct (N.eqb_spec q p), (N.eqb_spec q' p); subst; auto.
    + intros Eq Eq'. injection Eq as <- <-. exfalso. now apply (Hlt' q' c').
    + intros Eq Eq'. injection Eq' as <- <-. exfalso. now apply (Hlt' q c).
    + apply (to_inj t l T); auto.
Qed.

(** ** Histories *)
Fixpoint make_oids (t : oidtab) (addrs : list N) : option (list N * oidtab) :=
  match addrs with
  | [] => Some ([], t)
  | a :: r => match make_oid t a with
              | None => None
              | Some (x, t1) => match make_oids t1 r with
                                | None => None
                                | Some (xs, t2) => Some (x :: xs, t2)
                                end
              end
  end.

Lemma make_oid_eq t a : a < 2^64 -> make_oid t a =
  match add_base_oid_index t (base_of a) with
  | None => None
  | Some (boi, t') => Some (construct_oid boi (a mod 2^20), t')
  end.
Proof. intros H. unfold make_oid. now rewrite offset_mod, base_offset. Qed.

(** What a reference means relative to the list of bases. *)
Definition denotes (l : list N) (x a : N) : Prop :=
  exists k, nth_error l k = Some (base_of a) /\ x = a mod 2^20 * 2^18 + N.of_nat k * 4 + 3.

Lemma base_split a : a = base_of a + a mod 2^20.
Proof. unfold base_of. rewrite (N.mul_comm _ (2^20)). apply N.div_mod. discriminate. Qed.

Lemma denotes_addr t l x a : tab_ok t l -> N.of_nat (length l) <= 65536 -> a < 2^64 -> denotes l x a -> oid_addr t x = a.
Proof.
  intros T Hl Ha (k & Hk & ->). unfold oid_addr.
  assert (Hk' : (k < length l)%nat) by (apply nth_error_Some; congruence).
  destruct (addr_fields (N.of_nat k) (a mod 2^20)) as [-> ->]; [lia|].
  destruct (to_has t l T k _ Hk) as (-> & _). rewrite <- base_split, u64_mod. now apply N.mod_small.
Qed.
Lemma denotes_inj l x a b : NoDup l -> N.of_nat (length l) <= 65536 -> denotes l x a -> denotes l x b -> a = b.
Proof.
  intros ND Hl (k & Hk & E) (k' & Hk' & E').
  assert (K : (k < length l)%nat) by (apply nth_error_Some; congruence).
  assert (K' : (k' < length l)%nat) by (apply nth_error_Some; congruence).
  rewrite E in E'.
  assert (F1 := proj1 (addr_fields (N.of_nat k) (a mod 2^20) ltac:(lia))).
  assert (F2 := proj1 (addr_fields (N.of_nat k') (b mod 2^20) ltac:(lia))).
  assert (G1 := proj2 (addr_fields (N.of_nat k) (a mod 2^20) ltac:(lia))).
  assert (G2 := proj2 (addr_fields (N.of_nat k') (b mod 2^20) ltac:(lia))).
  rewrite E' in F1, G1. assert (k = k') by lia. subst k'.
  rewrite (base_split a), (base_split b). congruence.
Qed.
Lemma denotes_func l x y a : NoDup l -> denotes l x a -> denotes l y a -> x = y.
Proof.
  intros ND (k & Hk & ->) (k' & Hk' & ->). assert (k = k'); [|now subst].
  apply (proj1 (NoDup_nth_error l) ND); [apply nth_error_Some; congruence|congruence].
Qed.
Lemma denotes_app l m x a : denotes l x a -> denotes (l ++ m) x a.
Proof. intros (k & Hk & E). exists k. split; auto. rewrite nth_error_app1; auto. apply nth_error_Some. congruence. Qed.

(** The bases after a history, in order of first use. *)
Fixpoint add_bases (l : list N) (addrs : list N) : list N :=
  match addrs with
  | [] => l
  | a :: r => add_bases (if in_dec N.eq_dec (base_of a) l then l else l ++ [base_of a]) r
  end.
Lemma add_bases_ge l addrs : (length l <= length (add_bases l addrs))%nat.
Proof.
  revert l. induction addrs as [|a r IH]; intros l; simpl; [lia|].
  etransitivity; [|apply IH]. destruct (in_dec N.eq_dec (base_of a) l); rewrite ?app_length; lia.
Qed.
Lemma add_bases_app l addrs : exists m, add_bases l addrs = l ++ m.
Proof.
  revert l. induction addrs as [|a r IH]; intros l; simpl; [exists []; now rewrite app_nil_r|].
  destruct (IH (if in_dec N.eq_dec (base_of a) l then l else l ++ [base_of a])) as [m ->].
  destruct (in_dec N.eq_dec (base_of a) l); eauto. rewrite <- app_assoc. eauto.
Qed.

Lemma make_oids_spec addrs : forall t l, tab_ok t l -> Forall (fun a => a < 2^64) addrs ->
  N.of_nat (length (add_bases l addrs)) <= 65536 ->
  exists xs t', make_oids t addrs = Some (xs, t') /\ tab_ok t' (add_bases l addrs) /\
    Forall2 (denotes (add_bases l addrs)) xs addrs.
Proof.
  induction addrs as [|a r IH]; intros t l T Ha Hl; cbn [make_oids add_bases] in *.
  - exists [], t. auto.
  - inversion Ha as [|? ? Ha1 Ha2]; subst. rewrite make_oid_eq by auto.
    assert (Hl0 : N.of_nat (length l) <= 65536).
    { pose proof (add_bases_ge (if in_dec N.eq_dec (base_of a) l then l else l ++ [base_of a]) r).
      destruct (in_dec N.eq_dec (base_of a) l); rewrite ?app_length in *; lia. }
    assert (Ho : a mod 2^20 < 2^20) by (apply N.mod_lt; discriminate).
    assert (Hone : forall t1 l1 k, tab_ok t1 l1 -> nth_error l1 k = Some (base_of a) ->
       N.of_nat (length (add_bases l1 r)) <= 65536 ->
       exists xs t', match make_oids t1 r with Some (xs, t2) => Some (construct_oid (Some (N.of_nat k)) (a mod 2^20) :: xs, t2)
                     | None => None end = Some (xs, t') /\ tab_ok t' (add_bases l1 r) /\
                     Forall2 (denotes (add_bases l1 r)) xs (a :: r)).
    { intros t1 l1 k T1 Hk Hr. destruct (IH t1 l1 T1 Ha2 Hr) as (xs & t' & -> & T' & F).
      eexists. exists t'. split; [reflexivity|]. split; auto. constructor; auto.
      destruct (add_bases_app l1 r) as [m Em]. rewrite Em in *. apply denotes_app.
      exists k. split; auto. apply construct_small; auto.
      assert (k < length l1)%nat by (apply nth_error_Some; congruence). rewrite app_length in Hr. lia. }
    destruct (add_spec t l (base_of a) T) as [(k & Hk & ->)|[(Hn & Hlt & t' & -> & T')|(Hn & Hlt & _)]].
    + unfold N_OID_BUCKETS. lia.
    + destruct (in_dec N.eq_dec (base_of a) l) as [|Hn]; [|exfalso; apply Hn; eapply nth_error_In; eauto].
      now apply Hone.
    + destruct (in_dec N.eq_dec (base_of a) l); [contradiction|]. apply Hone; auto.
      rewrite nth_error_app2, Nat.sub_diag by lia. reflexivity.
    + unfold N_OID_BUCKETS in Hlt. lia.
Qed.

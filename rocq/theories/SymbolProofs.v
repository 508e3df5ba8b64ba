(** Proofs about the symbol table. *)

From Coq Require Import List Arith NArith Bool Lia ZArith ZifyBool ZifyN ZifyNat.
Import ListNotations.
From Verif Require Import HashtableModel SymbolModel.

(** ** Texts *)

Definition proper (n : list N) : Prop := Forall (fun c => c <> 0%N) n.

Lemma cstr_proper : forall n, proper n -> cstr n = n.
Proof.
  induction n as [|c n IH]; intros H; simpl; auto. inversion H; subst.
  destruct (N.eqb_spec c 0); [contradiction|]. rewrite IH; auto.
Qed.

Lemma strneq_proper : forall a b, proper a -> proper b -> length a = length b ->
  strneq a b (length a) = true -> a = b.
Proof.
  induction a as [|x a IH]; intros [|y b] Ha Hb L E; simpl in *; try discriminate; auto.
  inversion Ha; inversion Hb; subst. destruct (N.eqb_spec x y); [|discriminate]. subst y.
  destruct (N.eqb_spec x 0); [contradiction|]. f_equal. apply IH; auto.
Qed.

Lemma strneq_refl : forall n a, strneq a a n = true.
Proof.
  induction n as [|n IH]; intros a; simpl; auto. rewrite N.eqb_refl.
  destruct (N.eqb (hd 0%N a) 0); auto.
Qed.

Lemma NoDup_app_one : forall (A : Type) (l : list A) x, NoDup l -> ~ In x l -> NoDup (l ++ [x]).
Proof.
  induction l as [|a l IH]; intros x D H; simpl.
  - repeat constructor; auto.
  - inversion D; subst. constructor.
    + rewrite in_app_iff. simpl in *. intros [X|[X|[]]]; [contradiction|]. subst. tauto.
    + apply IH; auto. simpl in H. tauto.
Qed.

(** ** Slots *)

Lemma nth_set : forall l i j x, i < length l ->
  nth_error (set_slot l i x) j = if j =? i then Some (Some x) else nth_error l j.
Proof.
  intros l i j x H. unfold set_slot.
  assert (Lf : length (firstn i l) = i) by (rewrite firstn_length; lia).
  destruct (Nat.eqb_spec j i).
  - subst j. rewrite nth_error_app2 by lia. rewrite Lf, Nat.sub_diag. reflexivity.
  - destruct (Nat.lt_ge_cases j i).
    + rewrite nth_error_app1 by lia. clear -H0. revert j H0. revert l.
      induction i as [|i IH]; intros [|a l] [|j] H; simpl; auto; try lia. apply IH. lia.
    + rewrite nth_error_app2 by lia. rewrite Lf.
      destruct (j - i) as [|k] eqn:E; [lia|]. simpl.
      replace j with (S i + k) by lia.
      clear. revert l. induction i as [|i IH]; intros [|a l]; simpl; auto.
      * destruct k; auto.
      * destruct k; auto.
      * apply (IH l).
Qed.

Lemma len_set : forall l i x, i < length l -> length (set_slot l i x) = length l.
Proof.
  intros l i x H. unfold set_slot. rewrite app_length. cbn [length].
  rewrite firstn_length, skipn_length. lia.
Qed.

Fixpoint occ (l : list (option nat)) : nat :=
  match l with [] => 0 | None :: l' => occ l' | Some _ :: l' => S (occ l') end.

Lemma occ_app : forall a b, occ (a ++ b) = occ a + occ b.
Proof. induction a as [|[x|] a IH]; intros b; simpl; auto. Qed.

Lemma occ_repeat : forall n, occ (repeat None n) = 0.
Proof. induction n; simpl; auto. Qed.

Lemma occ_set : forall l i x, nth_error l i = Some None -> occ (set_slot l i x) = S (occ l).
Proof.
  unfold set_slot. induction l as [|o l IH]; intros [|i] x H; simpl in H; try discriminate.
  - injection H as ->. simpl. reflexivity.
  - specialize (IH i x H). rewrite occ_app in *. destruct o; simpl in *; lia.
Qed.

Lemma free_slot : forall l, occ l < length l -> exists j, nth_error l j = Some None.
Proof.
  induction l as [|[x|] l IH]; simpl; intros H; [lia| |].
  - destruct IH as [j Hj]; [lia|]. exists (S j). auto.
  - exists 0. reflexivity.
Qed.

(** Walking round the table. *)
Lemma next_mod : forall size i, i < size -> next size i = (i + 1) mod size.
Proof.
  intros size i H. unfold next. destruct (Nat.leb_spec size (S i)).
  - replace (i + 1) with size by lia. rewrite Nat.mod_same by lia. reflexivity.
  - rewrite Nat.mod_small by lia. lia.
Qed.

Lemma mod_walk : forall i k size, 0 < size -> ((i + 1) mod size + k) mod size = (i + S k) mod size.
Proof. intros. rewrite Nat.add_mod_idemp_l by lia. f_equal. lia. Qed.

Lemma reach : forall size i j, i < size -> j < size -> exists k, k < size /\ (i + k) mod size = j.
Proof.
  intros size i j Hi Hj. destruct (Nat.le_gt_cases i j).
  - exists (j - i). split; [lia|]. rewrite Nat.mod_small by lia. lia.
  - exists (j + size - i). split; [lia|]. replace (i + (j + size - i)) with (j + 1 * size) by lia.
    rewrite Nat.mod_add by lia. apply Nat.mod_small. lia.
Qed.

(** Where a probe stops. *)
Definition stops (ns : list (list N * nat)) (sl : list (option nat)) (mem : list N) (len : nat) (j : nat) : Prop :=
  nth_error sl j = Some None
  \/ exists id p, nth_error sl j = Some (Some id) /\ nth_error ns id = Some (p, len)
     /\ strneq mem p len = true.

Lemma probe_spec : forall fuel ns sl i mem len,
  i < length sl ->
  (forall j id, nth_error sl j = Some (Some id) -> id < length ns) ->
  (exists k, k < fuel /\ stops ns sl mem len ((i + k) mod length sl)) ->
  exists k, k < fuel /\ probe fuel ns sl i mem len = Some ((i + k) mod length sl)
    /\ stops ns sl mem len ((i + k) mod length sl)
    /\ forall k', k' < k -> exists id, nth_error sl ((i + k') mod length sl) = Some (Some id)
         /\ ~ stops ns sl mem len ((i + k') mod length sl).
Proof.
  induction fuel as [|f IH]; intros ns sl i mem len Hi Hs (k & Hk & St); [lia|].
  cbn [probe]. destruct (nth_error sl i) as [[id|]|] eqn:E.
  - destruct (nth_error ns id) as [[p n]|] eqn:En.
    2:{ apply nth_error_None in En. specialize (Hs _ _ E). lia. }
    destruct ((len =? n) && strneq mem p len) eqn:C.
    + apply andb_prop in C. destruct C as [C1 C2]. apply Nat.eqb_eq in C1. subst n.
      exists 0. rewrite Nat.add_0_r, Nat.mod_small by lia. split; [lia|]. split; auto. split; [|intros; lia].
      right. exists id, p. auto.
    + assert (NS : ~ stops ns sl mem len i).
      { intros [X|(id' & p' & X & Y & Z)]; [congruence|]. rewrite E in X. injection X as <-.
        rewrite En in Y. injection Y as <- <-. rewrite Nat.eqb_refl, Z in C. discriminate. }
      destruct k as [|k]; [rewrite Nat.add_0_r, Nat.mod_small in St by lia; contradiction|].
      rewrite next_mod by lia.
      destruct (IH ns sl ((i + 1) mod length sl) mem len) as (k1 & K1 & K2 & K3 & K4); auto.
      { apply Nat.mod_upper_bound. lia. }
      { exists k. rewrite mod_walk by lia. split; [lia|auto]. }
      rewrite mod_walk in * by lia. exists (S k1). split; [lia|]. split; auto. split; auto.
      intros [|k'] Hk'.
      * rewrite Nat.add_0_r, Nat.mod_small by lia. eauto.
      * destruct (K4 k') as (id' & A & B); [lia|]. rewrite mod_walk in * by lia. eauto.
  - exists 0. rewrite Nat.add_0_r, Nat.mod_small by lia. split; [lia|]. split; auto. split; [left; auto|]. intros; lia.
  - apply nth_error_None in E. lia.
Qed.

Lemma place_spec : forall fuel sl i,
  i < length sl ->
  (exists k, k < fuel /\ nth_error sl ((i + k) mod length sl) = Some None) ->
  exists k, k < fuel /\ place fuel sl i = Some ((i + k) mod length sl)
    /\ nth_error sl ((i + k) mod length sl) = Some None
    /\ forall k', k' < k -> exists id, nth_error sl ((i + k') mod length sl) = Some (Some id).
Proof.
  induction fuel as [|f IH]; intros sl i Hi (k & Hk & St); [lia|].
  cbn [place]. destruct (nth_error sl i) as [[id|]|] eqn:E.
  - destruct k as [|k]; [rewrite Nat.add_0_r, Nat.mod_small in St by lia; congruence|].
    replace (S i) with (i + 1) by lia.
    destruct (IH sl ((i + 1) mod length sl)) as (k1 & K1 & K2 & K3 & K4); auto.
    { apply Nat.mod_upper_bound. lia. }
    { exists k. rewrite mod_walk by lia. split; [lia|auto]. }
    rewrite mod_walk in * by lia. exists (S k1). split; [lia|]. split; auto. split; auto.
    intros [|k'] Hk'.
    * rewrite Nat.add_0_r, Nat.mod_small by lia. eauto.
    * destruct (K4 k') as (id' & A); [lia|]. rewrite mod_walk in * by lia. eauto.
  - exists 0. rewrite Nat.add_0_r, Nat.mod_small by lia. split; [lia|]. split; auto. split; auto. intros; lia.
  - apply nth_error_None in E. lia.
Qed.

(** ** The invariant *)

(** [id] can be found from the place its name hashes to without meeting an empty
    slot. *)
Definition chained (sl : list (option nat)) (h : nat) (id : nat) : Prop :=
  exists k, k < length sl /\ nth_error sl ((h + k) mod length sl) = Some (Some id)
    /\ forall k', k' < k -> exists id', nth_error sl ((h + k') mod length sl) = Some (Some id').

Definition entry (n : list N) : list N * nat := (n, length n).
Definition start (n : list N) (size : nat) : nat := home (hash_bytes n) size.

Record Inv (ns : list (list N)) (t : symtab) : Prop := {
  i_names : names t = map entry ns;
  i_proper : Forall proper ns;
  i_nodup : NoDup ns;
  i_max : (N.of_nat (length ns) <= maxs t)%N;
  i_size : (2 * maxs t < N.of_nat (length (slots t)))%N;
  i_occ : occ (slots t) = length ns;
  i_ids : forall j id, nth_error (slots t) j = Some (Some id) -> id < length ns;
  i_chain : forall id n, nth_error ns id = Some n -> chained (slots t) (start n (length (slots t))) id }.

Lemma home_lt : forall h size, 0 < size -> home h size < size.
Proof.
  intros h size H. unfold home. pose proof (N.mod_upper_bound h (N.of_nat size)). lia.
Qed.

Lemma chained_set : forall sl h id j x, j < length sl -> nth_error sl j = Some None ->
  chained sl h id -> chained (set_slot sl j x) h id.
Proof.
  intros sl h id j x Hj E (k & K1 & K2 & K3). exists k. rewrite len_set by auto.
  split; auto. rewrite nth_set by auto.
  split.
  - destruct (Nat.eqb_spec ((h + k) mod length sl) j); auto. congruence.
  - intros k' Hk'. rewrite nth_set by auto. destruct (Nat.eqb_spec ((h + k') mod length sl) j); eauto.
Qed.

Lemma names_nth : forall ns id, nth_error (map entry ns) id = option_map entry (nth_error ns id).
Proof. intros. apply nth_error_map. Qed.

(** What a probe for a proper name finds. *)
Lemma probe_found : forall ns t n, Inv ns t -> proper n ->
  exists k, k < length (slots t)
   /\ probe (length (slots t)) (names t) (slots t) (start n (length (slots t))) n (length n)
      = Some ((start n (length (slots t)) + k) mod length (slots t))
   /\ (forall k', k' < k -> exists id', nth_error (slots t) ((start n (length (slots t)) + k') mod length (slots t)) = Some (Some id'))
   /\ ((exists id, nth_error ns id = Some n
         /\ nth_error (slots t) ((start n (length (slots t)) + k) mod length (slots t)) = Some (Some id))
       \/ (~ In n ns /\ nth_error (slots t) ((start n (length (slots t)) + k) mod length (slots t)) = Some None)).
Proof.
  intros ns t n I P. pose proof (i_size _ _ I) as Sz. pose proof (i_max _ _ I) as Mx.
  set (sl := slots t) in *. set (h := start n (length sl)) in *.
  assert (Hh : h < length sl) by (apply home_lt; lia).
  assert (Ids : forall j id, nth_error sl j = Some (Some id) -> id < length (names t)).
  { intros j id X. rewrite (i_names _ _ I), map_length. eapply (i_ids _ _ I); eauto. }
  assert (Ex : exists k, k < length sl /\ stops (names t) sl n (length n) ((h + k) mod length sl)).
  { destruct (free_slot sl) as [j Hj].
    { unfold sl. rewrite (i_occ _ _ I). fold sl. lia. }
    assert (j < length sl) by (apply nth_error_Some; congruence).
    destruct (reach (length sl) h j) as (k & K1 & K2); auto. exists k. split; auto. left. congruence. }
  destruct (probe_spec (length sl) (names t) sl h n (length n) Hh Ids Ex) as (k & K1 & K2 & K3 & K4).
  exists k. split; auto. split; auto. split.
  { intros k' Hk'. destruct (K4 k' Hk') as (id & A & _). eauto. }
  destruct K3 as [K3|(id & p & A & B & C)].
  - right. split; auto. intros X. apply In_nth_error in X. destruct X as [id X].
    destruct (i_chain _ _ I id n X) as (k2 & C1 & C2 & C3). fold sl in C1, C2, C3. fold h in C1, C2, C3.
    assert (S2 : stops (names t) sl n (length n) ((h + k2) mod length sl)).
    { right. exists id, n. rewrite (i_names _ _ I), names_nth, X. split; auto. split; auto. apply strneq_refl. }
    destruct (Nat.lt_trichotomy k k2) as [L|[L|L]].
    + destruct (C3 k L) as [id' Y]. congruence.
    + subst k2. congruence.
    + destruct (K4 k2 L) as (_ & _ & Y). contradiction.
  - left. exists id. split; auto. rewrite (i_names _ _ I), names_nth in B.
    destruct (nth_error ns id) as [m|] eqn:E; [|discriminate]. simpl in B. unfold entry in B.
    injection B as B0 B. subst p. f_equal. symmetry.
    apply strneq_proper; auto.
    pose proof (i_proper _ _ I) as F. rewrite Forall_forall in F. apply F. eapply nth_error_In; eauto.
Qed.

(** ** Growing *)

Lemma stored_entry : forall n, stored (entry n) = Some n.
Proof. intros n. unfold stored, entry. rewrite Nat.leb_refl, firstn_all. reflexivity. Qed.

Lemma size_gt : forall m n, get_hashtable_size m = Some n -> (m < n)%N.
Proof. intros m n H. unfold get_hashtable_size in H. apply find_some in H. destruct H as [_ H]. lia. Qed.

Lemma size_ex : forall m, (m < 1610612741)%N -> exists n, get_hashtable_size m = Some n.
Proof.
  intros m H. destruct (get_hashtable_size m) as [n|] eqn:E; [eauto|].
  unfold get_hashtable_size in E.
  assert (I : In 1610612741%N hashtable_sizes) by (cbv [hashtable_sizes In]; tauto).
  pose proof (find_none _ _ E _ I) as X. simpl in X. lia.
Qed.

(** Moving the entries of [old] into [new]. *)
Lemma rehash_ok : forall old ns new,
  (forall j id, nth_error old j = Some (Some id) -> id < length ns) ->
  (forall j id, nth_error new j = Some (Some id) -> id < length ns) ->
  occ old + occ new < length new ->
  exists sl, rehash (map entry ns) old new = Some sl
    /\ length sl = length new
    /\ occ sl = occ old + occ new
    /\ (forall j id, nth_error sl j = Some (Some id) -> id < length ns)
    /\ (forall id h, chained new h id -> chained sl h id)
    /\ (forall j id n, nth_error old j = Some (Some id) -> nth_error ns id = Some n ->
         chained sl (start n (length sl)) id).
Proof.
  induction old as [|[id|] old IH]; intros ns new Ho Hn Oc; cbn [rehash].
  - exists new. repeat split; auto. intros j id n X. destruct j; discriminate.
  - assert (Hid : id < length ns) by (apply (Ho 0); reflexivity).
    rewrite names_nth. destruct (nth_error ns id) as [n|] eqn:E.
    2:{ apply nth_error_None in E. lia. }
    cbn [option_map]. rewrite stored_entry. fold (start n (length new)).
    cbn [occ] in Oc.
    assert (Hh : start n (length new) < length new) by (apply home_lt; lia).
    destruct (free_slot new) as [j Hj]; [lia|].
    assert (Hjl : j < length new) by (apply nth_error_Some; congruence).
    destruct (reach (length new) (start n (length new)) j Hh Hjl) as (k & K1 & K2).
    destruct (place_spec (length new) new (start n (length new)) Hh) as (k0 & A & B & C & D).
    { exists k. split; auto. congruence. }
    rewrite B. set (i := (start n (length new) + k0) mod length new) in *.
    assert (Hi : i < length new) by (apply Nat.mod_upper_bound; lia).
    destruct (IH ns (set_slot new i id)) as (sl & S1 & S2 & S3 & S4 & S5 & S6).
    + intros j' id' X. apply (Ho (S j')). exact X.
    + intros j' id' X. rewrite nth_set in X by auto. destruct (Nat.eqb_spec j' i).
      * injection X as <-. auto.
      * eauto.
    + rewrite len_set, occ_set by auto. lia.
    + rewrite len_set, occ_set in * by auto.
      exists sl. split; auto. split; auto. split; [cbn [occ]; lia|]. split; auto. split.
      * intros id' h X. apply S5. apply chained_set; auto.
      * intros [|j'] id' n' X Y; [|eauto]. simpl in X. injection X as <-.
        rewrite E in Y. injection Y as <-. apply S5. rewrite S2.
        exists k0. rewrite len_set by auto. split; auto. split.
        { rewrite nth_set by auto. fold i. rewrite Nat.eqb_refl. reflexivity. }
        { intros k' Hk'. rewrite nth_set by auto.
          destruct (Nat.eqb_spec ((start n (length new) + k') mod length new) i); eauto. }
  - destruct (IH ns new) as (sl & S1 & S2 & S3 & S4 & S5 & S6); auto.
    { intros j' id' X. apply (Ho (S j')). exact X. }
    exists sl. repeat split; auto. intros [|j'] id' n' X Y; [discriminate|eauto].
Qed.

Lemma chained_in : forall sl h id, chained sl h id -> exists j, nth_error sl j = Some (Some id).
Proof. intros sl h id (k & _ & A & _). eauto. Qed.

Lemma nth_repeat : forall (n j : nat) id, nth_error (repeat (@None nat) n) j = Some (Some id) -> False.
Proof. induction n; intros [|j] id H; simpl in H; try discriminate. eauto. Qed.

Lemma grow_ok : forall ns t, Inv ns t -> (4 * maxs t < 1610612741)%N -> (0 < maxs t)%N ->
  exists t', grow t = Some t' /\ Inv ns t' /\ maxs t' = (2 * maxs t)%N.
Proof.
  intros ns t I B Pm. destruct I as [i1 i2 i3 i4 i5 i6 i7 i8].
  unfold grow. cbv zeta. destruct (size_ex (2 * (2 * maxs t))) as [n Hn]; [lia|].
  rewrite Hn. apply size_gt in Hn. rewrite i1.
  destruct (rehash_ok (slots t) ns (repeat None (N.to_nat n))) as (sl & S1 & S2 & S3 & S4 & S5 & S6).
  - auto.
  - intros j id X. exfalso. eapply nth_repeat; eauto.
  - rewrite occ_repeat, repeat_length. lia.
  - rewrite S1. rewrite repeat_length, occ_repeat in *. eexists. split; [reflexivity|]. split; [|reflexivity].
    constructor; cbn [names slots maxs]; auto; try lia.
    intros id m X. destruct (chained_in _ _ _ (i8 _ _ X)) as [j J]. eapply S6; eauto.
Qed.

(** ** Interning *)

Fixpoint index_of (n : list N) (ns : list (list N)) : option nat :=
  match ns with
  | [] => None
  | m :: ns' => if list_eq_dec N.eq_dec m n then Some 0 else option_map S (index_of n ns')
  end.

Lemma index_in : forall n ns id, index_of n ns = Some id -> nth_error ns id = Some n.
Proof.
  induction ns as [|m ns IH]; intros id H; simpl in H; [discriminate|].
  destruct (list_eq_dec N.eq_dec m n); [injection H as <-; subst; reflexivity|].
  destruct (index_of n ns) as [i|]; [|discriminate]. injection H as <-. simpl. auto.
Qed.

Lemma index_none : forall n ns, index_of n ns = None <-> ~ In n ns.
Proof.
  induction ns as [|m ns IH]; simpl; [tauto|].
  destruct (list_eq_dec N.eq_dec m n); [split; [discriminate|tauto]|].
  destruct (index_of n ns); simpl; split; try discriminate; try tauto.
  - intros X. exfalso. apply X. right. destruct IH as [_ IH]. destruct (in_dec (list_eq_dec N.eq_dec) n ns); auto.
    specialize (IH n2). discriminate.
Qed.

Lemma index_nodup : forall n ns id, NoDup ns -> nth_error ns id = Some n -> index_of n ns = Some id.
Proof.
  intros n ns id D H. destruct (index_of n ns) as [i|] eqn:E.
  - apply index_in in E. f_equal. apply (proj1 (NoDup_nth_error ns) D); [|congruence].
    apply nth_error_Some. congruence.
  - apply index_none in E. exfalso. apply E. eapply nth_error_In; eauto.
Qed.

Lemma add_ok : forall ns t n k, Inv ns t -> proper n -> ~ In n ns ->
  (N.of_nat (length ns) < maxs t)%N -> k < length (slots t) ->
  (forall k', k' < k -> exists id', nth_error (slots t) ((start n (length (slots t)) + k') mod length (slots t)) = Some (Some id')) ->
  nth_error (slots t) ((start n (length (slots t)) + k) mod length (slots t)) = Some None ->
  Inv (ns ++ [n]) (MkT (names t ++ [(n, length n)])
     (set_slot (slots t) ((start n (length (slots t)) + k) mod length (slots t)) (length ns)) (maxs t)).
Proof.
  intros ns t n k [i1 i2 i3 i4 i5 i6 i7 i8] P Nin M Hk Oc E.
  set (sl := slots t) in *. set (i := (start n (length sl) + k) mod length sl) in *.
  assert (Hi : i < length sl) by (apply Nat.mod_upper_bound; lia).
  constructor; cbn [names slots maxs]; rewrite ?len_set, ?app_length by auto; cbn [length]; try lia.
  - rewrite i1, map_app. reflexivity.
  - apply Forall_app. split; auto.
  - apply NoDup_app_one; auto.
  - rewrite occ_set by auto. lia.
  - intros j id X. rewrite nth_set in X by auto. destruct (Nat.eqb_spec j i).
    + injection X as <-. lia.
    + specialize (i7 j id X). lia.
  - intros id m X. destruct (Nat.lt_ge_cases id (length ns)).
    + rewrite nth_error_app1 in X by lia. apply chained_set; auto.
    + rewrite nth_error_app2 in X by lia. destruct (id - length ns) as [|q] eqn:Q; [|destruct q; discriminate].
      simpl in X. injection X as <-. replace id with (length ns) by lia.
      exists k. rewrite len_set by auto. split; auto. split.
      * rewrite nth_set by auto. fold i. rewrite Nat.eqb_refl. reflexivity.
      * intros k' Hk'. rewrite nth_set by auto.
        destruct (Nat.eqb_spec ((start n (length sl) + k') mod length sl) i); eauto.
Qed.

(** What interning does to the list of names. *)
Definition add_name (n : list N) (ns : list (list N)) : list (list N) :=
  match index_of n ns with Some _ => ns | None => ns ++ [n] end.

Lemma make_room : forall fuel ns t n, Inv ns t -> proper n -> (0 < fuel) -> 
  (index_of n ns <> None \/ (N.of_nat (length ns) < maxs t)%N) ->
  exists t', make_symbol fuel t n (length n)
     = Some (t', match index_of n ns with Some i => i | None => length ns end)
    /\ Inv (add_name n ns) t' /\ maxs t' = maxs t.
Proof.
  intros [|fuel] ns t n I P F H; [lia|]. cbn [make_symbol]. cbv zeta.
  rewrite firstn_all. fold (start n (length (slots t))).
  destruct (probe_found ns t n I P) as (k & K1 & K2 & K3 & K4). rewrite K2.
  unfold add_name. destruct K4 as [(id & A & B)|[A B]].
  - rewrite B. rewrite (index_nodup n ns id (i_nodup _ _ I) A). eauto.
  - apply index_none in A. rewrite B, A in *. apply index_none in A.
    destruct H as [H|H]; [congruence|].
    assert (L : length (names t) = length ns) by (rewrite (i_names _ _ I), map_length; auto).
    rewrite L. destruct (N.leb_spec (maxs t) (N.of_nat (length ns))); [lia|].
    eexists. split; [reflexivity|]. split; [|reflexivity].
    rewrite cstr_proper by auto. apply add_ok; auto.
Qed.

Lemma intern_ok : forall ns t n, Inv ns t -> proper n -> (0 < maxs t)%N ->
  (4 * N.of_nat (length ns) < 1610612741)%N ->
  exists t', intern t n (length n)
     = Some (t', match index_of n ns with Some i => i | None => length ns end)
    /\ Inv (add_name n ns) t' /\ (maxs t <= maxs t')%N.
Proof.
  intros ns t n I P Pm B. unfold intern.
  destruct (index_of n ns) as [id|] eqn:E.
  { destruct (make_room 2 ns t n I P) as (t' & A & C & D); [lia|left; congruence|].
    rewrite E in A. exists t'. split; auto. split; auto. lia. }
  destruct (N.le_gt_cases (maxs t) (N.of_nat (length ns))).
  2:{ destruct (make_room 2 ns t n I P) as (t' & A & C & D); [lia|right; lia|].
      rewrite E in A. exists t'. split; auto. split; auto. lia. }
  cbn [make_symbol]. cbv zeta. rewrite firstn_all. fold (start n (length (slots t))).
  destruct (probe_found ns t n I P) as (k & K1 & K2 & K3 & K4). rewrite K2.
  destruct K4 as [(id & A & C)|[A C]].
  { apply (index_nodup n ns id (i_nodup _ _ I)) in A. congruence. }
  rewrite C. assert (L : length (names t) = length ns) by (rewrite (i_names _ _ I), map_length; auto).
  rewrite L. destruct (N.leb_spec (maxs t) (N.of_nat (length ns))); [|lia].
  pose proof (i_max _ _ I).
  destruct (grow_ok ns t I) as (t1 & G1 & G2 & G3); [lia|auto|]. rewrite G1.
  destruct (make_room 1 ns t1 n G2 P) as (t' & Q1 & Q2 & Q3); [lia|right; lia|].
  rewrite E in Q1. cbn [make_symbol] in Q1. cbv zeta in Q1.
  rewrite firstn_all in Q1. exists t'. split; [exact Q1|]. split; auto. lia.
Qed.

Lemma probe_ok : forall ns t n, Inv ns t -> proper n ->
  probe_symbol t n (length n) = Some (index_of n ns).
Proof.
  intros ns t n I P. unfold probe_symbol. destruct (names t) as [|e es] eqn:En.
  { rewrite (i_names _ _ I) in En. destruct ns; [reflexivity|discriminate]. }
  rewrite <- En. clear e es En. cbv zeta. rewrite firstn_all. fold (start n (length (slots t))).
  destruct (probe_found ns t n I P) as (k & K1 & K2 & K3 & K4). rewrite K2.
  destruct K4 as [(id & A & B)|[A B]]; rewrite B.
  - rewrite (index_nodup n ns id (i_nodup _ _ I) A). reflexivity.
  - apply index_none in A. congruence.
Qed.

Lemma init_ok : forall m, (0 < m)%N -> (2 * m < 1610612741)%N ->
  exists t, init_symbols m = Some t /\ Inv [] t /\ maxs t = m.
Proof.
  intros m Hm B. unfold init_symbols. destruct (size_ex (2 * m) B) as [n Hn]. rewrite Hn.
  apply size_gt in Hn. eexists. split; [reflexivity|]. split; [|reflexivity].
  constructor; cbn [names slots maxs length map]; auto; try lia.
  - constructor.
  - rewrite repeat_length. lia.
  - apply occ_repeat.
  - intros j id X. exfalso. eapply nth_repeat; eauto.
  - intros [|id] n' X; discriminate.
Qed.

(** ** Histories *)

(** The call passes a whole text without zero bytes. *)
Definition whole (o : symop) : Prop :=
  match o with Intern a n | Look a n => proper a /\ n = length a end.

Definition sstep (ns : list (list N)) (o : symop) : list (list N) * symout :=
  match o with
  | Intern a _ => (add_name a ns, Sym (match index_of a ns with Some i => i | None => length ns end))
  | Look a _ => (ns, match index_of a ns with Some i => Sym i | None => NoSym end)
  end.

Fixpoint srun (ns : list (list N)) (l : list symop) : list (list N) * list symout :=
  match l with
  | [] => (ns, [])
  | o :: l' => let '(n1, r) := sstep ns o in let '(n2, rs) := srun n1 l' in (n2, r :: rs)
  end.

Lemma add_len : forall a ns, length (add_name a ns) <= S (length ns).
Proof. intros a ns. unfold add_name. destruct (index_of a ns); rewrite ?app_length; simpl; lia. Qed.

Lemma symrun_ok : forall l ns t, Inv ns t -> Forall whole l -> (0 < maxs t)%N ->
  (4 * N.of_nat (length ns + length l) < 1610612741)%N ->
  exists t', symrun t l = Some (t', snd (srun ns l)) /\ Inv (fst (srun ns l)) t'.
Proof.
  induction l as [|o l IH]; intros ns t I W Pm B; simpl.
  { eauto. }
  inversion W as [|? ? W1 W2]; subst. cbn [length] in B. destruct o as [a n|a n]; destruct W1 as [P ->]; simpl.
  - destruct (intern_ok ns t a I P Pm) as (t1 & A & C & D); [lia|]. rewrite A.
    destruct (IH (add_name a ns) t1 C W2) as (t2 & E & F); [lia|pose proof (add_len a ns); lia|].
    rewrite E. destruct (srun (add_name a ns) l). eauto.
  - rewrite (probe_ok ns t a I P).
    destruct (IH ns t I W2 Pm) as (t2 & E & F); [lia|].
    destruct (srun ns l) as [n2 rs]. simpl in *. destruct (index_of a ns); rewrite E; eauto.
Qed.

Lemma srun_grows : forall l ns, exists e, fst (srun ns l) = ns ++ e.
Proof.
  induction l as [|o l IH]; intros ns; simpl; [exists []; rewrite app_nil_r; auto|].
  destruct (sstep ns o) as [n1 r] eqn:E.
  destruct (IH n1) as [e He]. destruct (srun n1 l) as [n2 rs]. simpl in *. subst n2.
  destruct o; simpl in E; injection E as <- _; [|eauto].
  unfold add_name. destruct (index_of mem ns); eauto. rewrite <- app_assoc. eauto.
Qed.

Lemma srun_interned : forall l ns i a n, nth_error l i = Some (Intern a n) ->
  exists id, nth_error (snd (srun ns l)) i = Some (Sym id) /\ nth_error (fst (srun ns l)) id = Some a.
Proof.
  induction l as [|o l IH]; intros ns [|i] a n H; simpl in H; try discriminate.
  - injection H as ->. simpl. destruct (srun_grows l (add_name a ns)) as [e He].
    destruct (srun (add_name a ns) l) as [n2 rs]. simpl in *. subst n2.
    eexists. split; [reflexivity|]. unfold add_name. destruct (index_of a ns) as [j|] eqn:E.
    + apply index_in in E. rewrite nth_error_app1; auto. apply nth_error_Some. congruence.
    + rewrite <- app_assoc, nth_error_app2, Nat.sub_diag by lia. reflexivity.
  - simpl. destruct (sstep ns o) as [n1 r]. destruct (IH n1 i a n H) as (id & A & B).
    destruct (srun n1 l). eauto.
Qed.

Lemma add_in : forall a b ns, In b (add_name a ns) <-> In b ns \/ a = b.
Proof.
  intros a b ns. unfold add_name. destruct (index_of a ns) as [i|] eqn:E.
  - apply index_in, nth_error_In in E. split; [tauto|]. intros [|<-]; auto.
  - rewrite in_app_iff. simpl. tauto.
Qed.

Lemma srun_looked : forall l ns i a n, nth_error l i = Some (Look a n) ->
  (exists id, nth_error (snd (srun ns l)) i = Some (Sym id) /\ nth_error (fst (srun ns l)) id = Some a
     /\ (In a ns \/ exists j k, j < i /\ nth_error l j = Some (Intern a k)))
  \/ (nth_error (snd (srun ns l)) i = Some NoSym /\ ~ In a ns
      /\ forall j k, j < i -> nth_error l j <> Some (Intern a k)).
Proof.
  induction l as [|o l IH]; intros ns [|i] a n H; simpl in H; try discriminate.
  - injection H as ->. simpl. destruct (srun_grows l ns) as [e He].
    destruct (srun ns l) as [n2 rs]. simpl in *. subst n2. destruct (index_of a ns) as [j|] eqn:E.
    + left. exists j. apply index_in in E. split; auto. split.
      * rewrite nth_error_app1; auto. apply nth_error_Some. congruence.
      * left. eapply nth_error_In; eauto.
    + right. apply index_none in E. repeat split; auto. intros; lia.
  - simpl. destruct (sstep ns o) as [n1 r] eqn:E.
    specialize (IH n1 i a n H). destruct (srun n1 l) as [n2 rs]. simpl in *.
    assert (N1 : In a n1 <-> In a ns \/ exists k, o = Intern a k).
    { destruct o; simpl in E; injection E as <- _.
      - rewrite add_in. split; intros [X|X]; auto.
        + subst. eauto.
        + destruct X as [k X]. injection X as -> _. auto.
      - split; auto. intros [X|[k X]]; [auto|discriminate]. }
    destruct IH as [(id & A & B & C)|(A & B & C)].
    + left. exists id. split; auto. split; auto. destruct C as [C|(j & k & C1 & C2)].
      * apply N1 in C. destruct C as [C|[k ->]]; auto. right. exists 0, k. split; [lia|auto].
      * right. exists (S j), k. split; [lia|auto].
    + right. split; auto. split; [tauto|]. intros [|j] k Hj; simpl.
      * intros X. injection X as ->. apply B. apply N1. eauto.
      * apply C. lia.
Qed.

Lemma srun_all : forall l ns a, In a (fst (srun ns l)) ->
  In a ns \/ exists i k, nth_error l i = Some (Intern a k).
Proof.
  induction l as [|o l IH]; intros ns a H; simpl in H; auto.
  destruct (sstep ns o) as [n1 r] eqn:E. specialize (IH n1 a).
  destruct (srun n1 l) as [n2 rs]. simpl in *. destruct (IH H) as [X|(i & k & X)].
  - destruct o; simpl in E; injection E as <- _; auto. apply add_in in X.
    destruct X as [X|X]; auto. subst. right. exists 0. eexists. reflexivity.
  - right. exists (S i), k. auto.
Qed.

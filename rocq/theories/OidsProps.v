(** * C26, C27: object identifiers. *)
From Coq Require Import Lia.
From Verif Require Import BytesModel BytesProofs OidsModel OidsProofs.
Local Open Scope N_scope.

(** The aligned blocks of 2^20 addresses that a history touches. *)
Definition blocks (addrs : list N) : list N := nodup N.eq_dec (map (fun a => a / 2^20) addrs).

Lemma add_bases_blocks addrs : forall l, NoDup l ->
  NoDup (add_bases l addrs) /\ forall b, In b (add_bases l addrs) <-> In b l \/ In b (map base_of addrs).
Proof.
  induction addrs as [|a r IH]; intros l H; cbn [add_bases map].
  - split; auto. simpl. tauto.
  - destruct (in_dec N.eq_dec (base_of a) l) as [Hi|Hi].
    + destruct (IH l H) as [H1 H2]. split; auto. intros b. rewrite H2. simpl. split; [tauto|].
      intros [|[<-|]]; auto.
    + destruct (IH (l ++ [base_of a])) as [H1 H2].
      { apply (Permutation.Permutation_NoDup (l := base_of a :: l)).
        - apply Permutation.Permutation_cons_append. - now constructor. }
      split; auto. intros b. rewrite H2, in_app_iff. simpl. tauto.
Qed.
Lemma base_block a b : base_of a = base_of b <-> a / 2^20 = b / 2^20.
Proof. unfold base_of. rewrite N.mul_cancel_r by discriminate. tauto. Qed.
Lemma blocks_len addrs : (length (add_bases [] addrs) <= length (blocks addrs))%nat.
Proof.
  destruct (add_bases_blocks addrs []) as [H1 H2]; [constructor|].
  rewrite <- (map_length (fun b => b * 2^20) (blocks addrs)).
  apply NoDup_incl_length; auto. intros b Hb. apply H2 in Hb. destruct Hb as [[]|Hb].
  apply in_map_iff in Hb. destruct Hb as (a & <- & Ha). unfold base_of.
  apply in_map_iff. exists (a / 2^20). split; auto. apply nodup_In, in_map_iff. eauto.
Qed.

(** Any history of making references from addresses, while at most 65536 different
    blocks are touched: every reference converts back to its address with the tables
    as they are at the end. *)
Theorem C26_roundtrip_partial : forall addrs,
  Forall (fun a => a < 2^64) addrs -> N.of_nat (length (blocks addrs)) <= 65536 ->
  exists refs t, make_oids oids_init addrs = Some (refs, t) /\ map (oid_addr t) refs = addrs.
Proof.
  intros addrs Ha Hb. pose proof (blocks_len addrs).
  destruct (make_oids_spec addrs oids_init [] tab_init Ha ltac:(lia)) as (xs & t & E & T & F).
  exists xs, t. split; auto.
  assert (Hl : N.of_nat (length (add_bases [] addrs)) <= 65536) by lia. clear E Hb H.
  remember (add_bases [] addrs) as l. clear Heql. induction F as [|x a xs r D F IH]; auto.
  inversion Ha; subst. simpl. f_equal; [|auto]. eapply denotes_addr; eauto.
Qed.

(** Two references are the same exactly when their addresses are. *)
Theorem C26_unique_partial : forall addrs refs t i j a b x y,
  Forall (fun a => a < 2^64) addrs -> N.of_nat (length (blocks addrs)) <= 65536 ->
  make_oids oids_init addrs = Some (refs, t) ->
  nth_error addrs i = Some a -> nth_error addrs j = Some b ->
  nth_error refs i = Some x -> nth_error refs j = Some y ->
  (x = y <-> a = b).
Proof.
  intros addrs refs t i j a b x y Ha Hb E Ei Ej Xi Xj. pose proof (blocks_len addrs).
  destruct (make_oids_spec addrs oids_init [] tab_init Ha ltac:(lia)) as (xs & t' & E' & T & F).
  rewrite E in E'. injection E' as <- <-.
  assert (D : forall i a x, nth_error addrs i = Some a -> nth_error refs i = Some x -> denotes (add_bases [] addrs) x a).
  { clear -F. remember (add_bases [] addrs) as l. clear Heql. induction F; intros [|i] u v; simpl; try discriminate; eauto.
    intros E1 E2. injection E1 as <-. injection E2 as <-. auto. }
  pose proof (D _ _ _ Ei Xi) as D1. pose proof (D _ _ _ Ej Xj) as D2. split.
  - intros ->. apply (denotes_inj (add_bases [] addrs) y a b); auto; [apply (to_nodup _ _ T)|lia].
  - intros ->. apply (denotes_func (add_bases [] addrs) x y b); auto. apply (to_nodup _ _ T).
Qed.

Definition ex_addrs : list N := [0x100000005; 0xFFFFFFFFFFFFFFFF; 0; 0x100000005; 0x1000FFFFF; 0x100100000].
Example C26_ex_hyp : Forall (fun a => a < 2^64) ex_addrs /\ N.of_nat (length (blocks ex_addrs)) <= 65536.
Proof. split; [repeat constructor|vm_compute; discriminate]. Qed.
Example C26_ex : exists refs t, make_oids oids_init ex_addrs = Some (refs, t) /\
  refs = [1310723; 274877644807; 11; 1310723; 274877644803; 15].
Proof. eexists. eexists. split; vm_compute; reflexivity. Qed.

(** ** Finding: the 65537th block *)
Definition many (n : nat) : list N := map (fun i => N.of_nat i * 2^20) (seq 0 n).
Lemma base_mul i : base_of (i * 2^20) = i * 2^20.
Proof. unfold base_of. now rewrite N.div_mul. Qed.
Lemma add_bases_fresh addrs : forall l, NoDup (l ++ map base_of addrs) -> add_bases l addrs = l ++ map base_of addrs.
Proof.
  induction addrs as [|a r IH]; intros l H; cbn [add_bases map] in *; [now rewrite app_nil_r|].
  destruct (in_dec N.eq_dec (base_of a) l) as [Hi|Hi].
  - exfalso. apply NoDup_remove_2 in H. apply H. apply in_or_app. auto.
  - rewrite IH; rewrite <- app_assoc; auto.
Qed.
Lemma many_bases n : add_bases [] (many n) = many n.
Proof.
  assert (E : map base_of (many n) = many n).
  { unfold many. rewrite map_map. apply map_ext. intros i. apply base_mul. }
  rewrite add_bases_fresh; rewrite E; auto. simpl.
  apply map_nodup_in; [|apply seq_NoDup]. intros x y _ _ H. lia.
Qed.

Lemma Forall2_len {A B} (P : A -> B -> Prop) l m : Forall2 P l m -> length l = length m.
Proof. induction 1; simpl; auto. Qed.

Lemma many_lt n : N.of_nat n = 65536 -> Forall (fun a => a < 2^64) (many n).
Proof.
  intros Hn. apply Forall_forall. intros a Ha. unfold many in Ha. apply in_map_iff in Ha. destruct Ha as (i & <- & Hi).
  apply in_seq in Hi. change (2^64) with (2^44 * 2^20). apply N.mul_lt_mono_pos_r; [reflexivity|].
  change (2^44) with 17592186044416. lia.
Qed.
Lemma many_len n : length (many n) = n.
Proof. unfold many. now rewrite map_length, seq_length. Qed.
Lemma many_0 n : N.of_nat n = 65536 -> nth_error (many n) 0 = Some 0.
Proof. intros Hn. unfold many. destruct n; [simpl in Hn; lia|]. reflexivity. Qed.
Lemma many_big n : N.of_nat n = 65536 -> ~ In (65536 * 2^20) (many n).
Proof.
  intros Hn Hk. unfold many in Hk. apply in_map_iff in Hk. destruct Hk as (i & Ei & Hi).
  apply in_seq in Hi. apply N.mul_cancel_r in Ei; [lia|discriminate].
Qed.
Lemma many_1 n t : N.of_nat n = 65536 -> tab_ok t (many n) -> make_oid t 1 = Some (262147, t).
Proof.
  intros Hn T. rewrite make_oid_eq by reflexivity. change (base_of 1) with 0. change (1 mod 2^20) with 1.
  pose proof (many_0 n Hn) as H0.
  destruct (add_spec t (many n) 0 T) as [(k & Hk & ->)|[(Hn' & _)|(Hn' & _)]].
  - rewrite many_len. unfold N_OID_BUCKETS. lia.
  - assert (k = O); [|subst; reflexivity].
    apply (proj1 (NoDup_nth_error (many n)) (to_nodup _ _ T)); [apply nth_error_Some; congruence|]. congruence.
  - exfalso. apply Hn'. eapply nth_error_In; eauto.
  - exfalso. apply Hn'. eapply nth_error_In; eauto.
Qed.
Lemma many_2 n t : N.of_nat n = 65536 -> tab_ok t (many n) -> exists t2, make_oid t (65536 * 2^20) = Some (262147, t2).
Proof.
  intros Hn T. rewrite make_oid_eq by reflexivity. rewrite base_mul.
  destruct (add_spec t (many n) (65536 * 2^20) T) as [(k & Hk & _)|[(_ & _ & t2 & -> & _)|(_ & Hx & _)]].
  - rewrite many_len. unfold N_OID_BUCKETS. lia.
  - exfalso. apply (many_big n Hn). eapply nth_error_In; eauto.
  - exists t2. rewrite many_len, Hn. reflexivity.
  - rewrite many_len, Hn in Hx. discriminate.
Qed.
Lemma make_oids_2 addrs : forall t0 xs t a b x y t1 t2, make_oids t0 addrs = Some (xs, t) ->
  make_oid t a = Some (x, t1) -> make_oid t1 b = Some (y, t2) ->
  make_oids t0 (addrs ++ [a; b]) = Some (xs ++ [x; y], t2).
Proof.
  induction addrs as [|c l IH]; intros t0 xs t a b x y t1 t2 E E1 E2; cbn [make_oids app] in *.
  - injection E as <- <-. rewrite E1, E2. reflexivity.
  - destruct (make_oid t0 c) as [[x' t1']|]; [|discriminate].
    destruct (make_oids t1' l) as [[ys t3]|] eqn:E'; [|discriminate]. injection E as <- <-.
    rewrite (IH _ _ _ _ _ _ _ _ _ E' E1 E2). reflexivity.
Qed.
Lemma nth_last2 {A} (l : list A) a b n : length l = n ->
  nth_error (l ++ [a; b]) n = Some a /\ nth_error (l ++ [a; b]) (S n) = Some b.
Proof. intros <-. induction l; simpl; auto. Qed.
Lemma many_blocks n : N.of_nat n = 65536 -> exists addrs refs t i j a b x,
  Forall (fun a => a < 2^64) addrs /\ make_oids oids_init addrs = Some (refs, t) /\
  nth_error addrs i = Some a /\ nth_error addrs j = Some b /\ a <> b /\
  nth_error refs i = Some x /\ nth_error refs j = Some x.
Proof.
  intros Hn.
  destruct (make_oids_spec (many n) oids_init [] tab_init (many_lt n Hn)) as (xs & t & E & T & D).
  { rewrite many_bases, many_len. lia. }
  rewrite many_bases in T, D.
  assert (Hxs : length xs = n) by (rewrite (Forall2_len _ _ _ D); apply many_len).
  destruct (many_2 n t Hn T) as [t2 E2].
  exists (many n ++ [1; 65536 * 2^20]), (xs ++ [262147; 262147]), t2, n, (S n), 1, (65536 * 2^20), 262147.
  split; [apply Forall_app; split; [exact (many_lt n Hn)|]; repeat constructor|].
  split; [exact (make_oids_2 _ _ _ _ _ _ _ _ _ _ E (many_1 n t Hn T) E2)|].
  destruct (nth_last2 (many n) 1 (65536 * 2^20) n (many_len n)) as [H1 H2].
  destruct (nth_last2 xs 262147 262147 n Hxs) as [H3 H4].
  split; [exact H1|]. split; [exact H2|]. split; [discriminate|]. split; [exact H3|exact H4].
Qed.
(** After 65536 blocks have been used, the reference made for the next block's first
    address is the reference of address 1. *)
Theorem C26_many_blocks_refuted : exists addrs refs t i j a b x,
  Forall (fun a => a < 2^64) addrs /\ make_oids oids_init addrs = Some (refs, t) /\
  nth_error addrs i = Some a /\ nth_error addrs j = Some b /\ a <> b /\
  nth_error refs i = Some x /\ nth_error refs j = Some x.
Proof. exact (many_blocks (N.to_nat 65536) (N2Nat.id 65536)). Qed.

(** ** C27: printed identifiers read back *)
Theorem C27_print_parse : forall addr rest, addr < 2^64 ->
  (match rest with [] => True | c :: _ => In c [9; 10; 11; 12; 13; 32; 41; 93; 125] end) ->
  parse_oid (print_oid addr ++ rest) = POk addr rest.
Proof.
  intros a rest Ha Hr. apply parse_print; auto. destruct rest as [|c rest]; auto. simpl in Hr.
  decompose [or] Hr; subst; try contradiction; reflexivity.
Qed.
(** Different addresses have different texts. *)
Theorem C27_print_injective : forall a b, a < 2^64 -> b < 2^64 -> print_oid a = print_oid b -> a = b.
Proof.
  intros a b Ha Hb E. pose proof (parse_print a [] Ha I) as H1. pose proof (parse_print b [] Hb I) as H2.
  rewrite E, H2 in H1. congruence.
Qed.
Example C27_ex : print_oid 0x1000ABCDE = [64; 49; 47; 97; 98; 99; 100; 101]          (* @1/abcde *)
  /\ parse_oid (print_oid 0x1000ABCDE ++ [41; 49]) = POk 0x1000ABCDE [41; 49].
Proof. vm_compute. auto. Qed.
(** Finding: 64 hexadecimal digits overflow the 64-byte buffer on the stack. *)
Theorem C27_long_text_refuted : forall rest, parse_oid (64 :: repeat 49 64 ++ rest) = POverflow.
Proof. intros [|c rest]; vm_compute; reflexivity. Qed.

Print Assumptions C26_roundtrip_partial.
Print Assumptions C26_unique_partial.
Print Assumptions C26_many_blocks_refuted.
Print Assumptions C27_print_parse.
Print Assumptions C27_print_injective.
Print Assumptions C27_long_text_refuted.

(** OIDs of up to 65536 blocks of 2^20, made in any order: each reference leads back to its
    64-bit address, and two of them are the same exactly if the addresses are. *)
Theorem C85_oids : forall addrs, Forall (fun a => a < 2^64) addrs -> N.of_nat (length (blocks addrs)) <= 65536 ->
  exists refs t, make_oids oids_init addrs = Some (refs, t) /\ map (oid_addr t) refs = addrs /\
    forall i j a b x y, nth_error addrs i = Some a -> nth_error addrs j = Some b ->
      nth_error refs i = Some x -> nth_error refs j = Some y -> (x = y <-> a = b).
Proof.
  intros addrs F L. destruct (C26_roundtrip_partial addrs F L) as (refs & t & M & R). exists refs, t.
  split; [exact M|]. split; [exact R|].
  intros i j a b x y A B X Y. exact (C26_unique_partial addrs refs t i j a b x y F L M A B X Y).
Qed.
Example C85_oids_case : Forall (fun a => a < 2^64) ex_addrs /\ N.of_nat (length (blocks ex_addrs)) <= 65536 /\
  exists refs t, make_oids oids_init ex_addrs = Some (refs, t) /\ refs = [1310723; 274877644807; 11; 1310723; 274877644803; 15].
Proof. split; [apply C26_ex_hyp|]. split; [apply C26_ex_hyp|exact C26_ex]. Qed.
Print Assumptions C85_oids.

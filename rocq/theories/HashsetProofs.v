(** * Lemmas about hash sets. *)
From Coq Require Import Lia Permutation Sorting.Sorted List ZArith.
From Verif Require Import ValueModel ValueProofs SortModel SortProofs ChoicesModel SlotmapModel HashtableModel HashsetModel
  ChoicesProofs ChoicesProofs2 ChoicesProofs3 ChoicesProps TableProofs SlotmapProofs HashtableProofs.
Import ListNotations.

Section Sets.
Variable sc : scfg.
Variable cf : config.
Hypothesis Hcf : cfg_ok cf.

(** The buckets hold the members of [P], each in the bucket of its hash. *)
Record hs_rep (h : hashset) (P : val -> Prop) : Prop := {
  rep_pos : slots h <> [];
  rep_ok : Forall (fun c => lv_ok c /\ lv_big c) (slots h);
  rep_hash : forall i c x, nth_error (slots h) i = Some c -> In x (lelts c) -> sbucket sc h x = i;
  rep_mem : forall x, P x <-> exists c, In c (slots h) /\ In x (lelts c) }.

Lemma rep_ext h P Q : (forall x, P x <-> Q x) -> hs_rep h P -> hs_rep h Q.
Proof. intros E [A B C D]. constructor; auto. intros x. now rewrite <- E, D. Qed.
Lemma rep_elt h P x : hs_rep h P -> P x -> elt_ok x.
Proof.
  intros H Hx. apply (rep_mem _ _ H) in Hx as (c & Hc & Hx).
  destruct (Forall_in _ _ _ (rep_ok _ _ H) Hc) as [O _]. apply (Forall_in _ _ _ (lelts_ok _ O) Hx).
Qed.
Lemma sbucket_lt h k : slots h <> [] -> sbucket sc h k < length (slots h).
Proof.
  intros H. unfold sbucket, s_buckets. destruct (slots h) as [|c l]; [tauto|].
  set (n := length (c :: l)). assert (0 < N.of_nat n)%N by (unfold n; simpl; lia).
  pose proof (N.mod_lt (shash sc k) (N.of_nat n)). lia.
Qed.
Lemma slot_at h P k : hs_rep h P -> exists c, nth_error (slots h) (sbucket sc h k) = Some c /\
  lv_ok c /\ lv_big c /\ (P k <-> In k (lelts c)).
Proof.
  intros H. pose proof (sbucket_lt h k (rep_pos _ _ H)) as L. apply nth_error_Some in L.
  destruct (nth_error (slots h) (sbucket sc h k)) as [c|] eqn:E; [|tauto]. exists c. split; auto.
  destruct (Forall_in _ _ _ (rep_ok _ _ H) (nth_error_In _ _ E)) as [O B]. split; auto. split; auto. split.
  - intros Hk. apply (rep_mem _ _ H) in Hk as (d & Hd & Hk). apply In_nth_error in Hd as [j Hj].
    pose proof (rep_hash _ _ H j d k Hj Hk). subst j. congruence.
  - intros Hk. apply (rep_mem _ _ H). exists c. split; auto. now apply nth_error_In in E.
Qed.
Lemma slots_with h i c : i < length (slots h) -> length (slots (with_slot h i c)) = length (slots h).
Proof. intros L. cbn. now apply set_len_n. Qed.
Lemma sbucket_with h i c k : i < length (slots h) -> sbucket sc (with_slot h i c) k = sbucket sc h k.
Proof. intros L. unfold sbucket, s_buckets. now rewrite slots_with. Qed.
Lemma rep_set h P k c : hs_rep h P -> lv_ok c -> lv_big c ->
  (forall x, In x (lelts c) -> sbucket sc h x = sbucket sc h k) ->
  hs_rep (with_slot h (sbucket sc h k) c) (fun x => (P x /\ sbucket sc h x <> sbucket sc h k) \/ In x (lelts c)).
Proof.
  intros H O B Hh. pose proof (sbucket_lt h k (rep_pos _ _ H)) as L. set (i := sbucket sc h k) in *.
  constructor.
  - intros E. pose proof (slots_with h i c L) as E'. rewrite E in E'. simpl in E'. lia.
  - apply Forall_forall. intros d Hd. apply set_in in Hd as [->|Hd]; auto. apply (Forall_in _ _ _ (rep_ok _ _ H) Hd).
  - intros j d x Hj Hx. rewrite sbucket_with by auto. destruct (Nat.eq_dec j i) as [->|D].
    + cbn in Hj. rewrite nth_set_eq in Hj by auto. injection Hj as <-. now apply Hh.
    + cbn in Hj. rewrite nth_set_neq in Hj by auto. now apply (rep_hash _ _ H j d).
  - intros x. split.
    + intros [[Hx Hn]|Hx].
      * destruct (slot_at h P x H) as (d & E & _ & _ & M). exists d. split; [|now apply M].
        apply (nth_error_In _ (sbucket sc h x)). cbn. rewrite nth_set_neq; auto.
      * exists c. split; auto. apply (nth_error_In _ i). cbn. now apply nth_set_eq.
    + intros (d & Hd & Hx). apply In_nth_error in Hd as [j Hj]. destruct (Nat.eq_dec j i) as [->|D].
      * cbn in Hj. rewrite nth_set_eq in Hj by auto. injection Hj as <-. now right.
      * cbn in Hj. rewrite nth_set_neq in Hj by auto. left. split.
        -- apply (rep_mem _ _ H). exists d. split; auto. now apply nth_error_In in Hj.
        -- pose proof (rep_hash _ _ H j d x Hj Hx). congruence.
Qed.
Lemma elt_single k : elt_ok k -> lv_ok (Simple (SVal k)) /\ lv_big (Simple (SVal k)) /\ forall x, In x (lelts (Simple (SVal k))) <-> x = k.
Proof.
  intros H. split; [now right|]. split; [exact I|]. intros x. cbn [lelts]. rewrite selts_elt by auto. simpl. split; [intros [|[]]; auto|auto].
Qed.
(** Replacing a bucket by the same elements plus [k]. *)
Lemma rep_plus h P k c c' : hs_rep h P -> nth_error (slots h) (sbucket sc h k) = Some c -> lv_ok c' -> lv_big c' ->
  (forall x, In x (lelts c') <-> In x (lelts c) \/ x = k) ->
  hs_rep (with_slot h (sbucket sc h k) c') (fun x => P x \/ x = k).
Proof.
  intros H E O B M. eapply rep_ext; [|apply rep_set; eauto].
  - intros x. cbn beta. rewrite M. split.
    + intros [[? _]|[Hx| ->]]; auto. left. apply (rep_mem _ _ H). exists c. split; auto. now apply nth_error_In in E.
    + intros [Hx| ->]; auto. destruct (Nat.eq_dec (sbucket sc h x) (sbucket sc h k)) as [D|D]; auto. right. left.
      destruct (slot_at h P x H) as (d & E' & _ & _ & M'). rewrite D, E in E'. injection E' as <-. now apply M'.
  - intros x Hx. apply M in Hx as [Hx| ->]; auto. now apply (rep_hash _ _ H _ c).
Qed.
Lemma rep_minus h P k c c' : hs_rep h P -> nth_error (slots h) (sbucket sc h k) = Some c -> lv_ok c' -> lv_big c' ->
  (forall x, In x (lelts c') <-> In x (lelts c) /\ x <> k) ->
  hs_rep (with_slot h (sbucket sc h k) c') (fun x => P x /\ x <> k).
Proof.
  intros H E O B M. eapply rep_ext; [|apply rep_set; eauto].
  - intros x. cbn beta. rewrite M. split.
    + intros [[? D]|[Hx D]]; split; auto; [congruence|]. apply (rep_mem _ _ H). exists c. split; auto. now apply nth_error_In in E.
    + intros [Hx D]. destruct (Nat.eq_dec (sbucket sc h x) (sbucket sc h k)) as [D'|D']; auto. right. split; auto.
      destruct (slot_at h P x H) as (d & E' & _ & _ & M'). rewrite D', E in E'. injection E' as <-. now apply M'.
  - intros x Hx. apply M in Hx as [Hx _]. now apply (rep_hash _ _ H _ c).
Qed.
Lemma rep_same h P k c c' : hs_rep h P -> nth_error (slots h) (sbucket sc h k) = Some c -> lv_ok c' -> lv_big c' ->
  (forall x, In x (lelts c') <-> In x (lelts c)) -> hs_rep (with_slot h (sbucket sc h k) c') P.
Proof.
  intros H E O B M. eapply rep_ext; [|apply rep_set; eauto].
  - intros x. cbn beta. rewrite M. split.
    + intros [[? D]|Hx]; auto. apply (rep_mem _ _ H). exists c. split; auto. now apply nth_error_In in E.
    + intros Hx. destruct (Nat.eq_dec (sbucket sc h x) (sbucket sc h k)) as [D'|D']; auto. right.
      destruct (slot_at h P x H) as (d & E' & _ & _ & M'). rewrite D', E in E'. injection E' as <-. now apply M'.
  - intros x Hx. apply M in Hx. now apply (rep_hash _ _ H _ c).
Qed.

(** ** Lookup *)
Lemma in_simple_spec k s : simple_ok s -> elt_ok k -> exists b, in_simple k s = Some b /\ (b = true <-> In k (selts s)).
Proof.
  intros H Hk. destruct s as [v|a l]; cbn [in_simple].
  - eexists. split; [reflexivity|]. cbn [selts]. destruct (emptyp v) eqn:E; [split; [discriminate|intros []]|].
    destruct H as [->|H]; [discriminate|]. rewrite leq_eq; [|apply H|apply Hk]. simpl. tauto.
  - destruct H as (F & S1 & _). apply containsp_spec; auto.
Qed.
(** The bucket of [k] is not an accumulator. *)
Definition settled (h : hashset) (k : val) : Prop := exists s, nth_error (slots h) (sbucket sc h k) = Some (Simple s).
Lemma get_spec h P k : hs_rep h P -> elt_ok k -> n_elts h <> 0%Z ->
  exists b h', hashset_get sc cf h k = Some (b, h') /\ (b = true <-> P k) /\ hs_rep h' P /\ n_elts h' = n_elts h /\ settled h' k.
Proof.
  intros H Hk Hn. unfold hashset_get. destruct (Z.eqb_spec (n_elts h) 0); [tauto|].
  destruct (slot_at h P k H) as (c & E & O & B & M). rewrite E. destruct c as [s|p].
  - destruct (in_simple_spec k s O Hk) as (b & -> & Hb). exists b, h. split; auto. split; [rewrite Hb, M; reflexivity|].
    split; auto. split; auto. now exists s.
  - destruct (simplify_spec cf (Pre p) Hcf O) as (s & -> & S1 & S2).
    destruct (in_simple_spec k s S1 Hk) as (b & -> & Hb). eexists b, _. split; [reflexivity|].
    split; [rewrite Hb, S2, M; reflexivity|]. split; [now apply (rep_same h P k (Pre p))|].
    split; auto. exists s. rewrite sbucket_with by (apply sbucket_lt, H). cbn. apply nth_set_eq. apply sbucket_lt, H.
Qed.

(** ** Adding *)
Lemma add_raw_spec h P k : hs_rep h P -> elt_ok k ->
  exists h', add_raw sc cf h k = Some h' /\ hs_rep h' (fun x => P x \/ x = k) /\ n_elts h' = n_elts h.
Proof.
  intros H Hk. unfold add_raw. destruct (slot_at h P k H) as (c & E & O & B & _). rewrite E.
  destruct (elt_single k Hk) as (O1 & B1 & M1).
  destruct (add_to_choice_spec cf false c (Simple (SVal k)) Hcf O B O1 B1) as (r & -> & R1 & R2 & R3).
  eexists. split; [reflexivity|]. split; auto. apply (rep_plus h P k c); auto. intros x. now rewrite R3, M1.
Qed.
Lemma add_raw_all_spec l : Forall elt_ok l -> forall h P, hs_rep h P ->
  exists h', add_raw_all sc cf h l = Some h' /\ hs_rep h' (fun x => P x \/ In x l) /\ n_elts h' = n_elts h.
Proof.
  induction 1 as [|k l Hk Hl IH]; intros h P H; cbn [add_raw_all].
  - exists h. split; auto. split; auto. eapply rep_ext; [|exact H]. simpl. tauto.
  - destruct (add_raw_spec h P k H Hk) as (h1 & -> & H1 & N1). destruct (IH h1 _ H1) as (h2 & -> & H2 & N2).
    exists h2. split; auto. split; [|congruence]. eapply rep_ext; [|exact H2]. intros x. simpl.
    assert (k = x <-> x = k) by (split; congruence). tauto.
Qed.
Lemma content_spec c : lv_ok c -> exists l, content_elts cf c = Some l /\ Forall elt_ok l /\ NoDup l /\
  forall x, In x l <-> In x (lelts c).
Proof.
  intros O. unfold content_elts. destruct (simplify_spec cf c Hcf O) as (s & -> & S1 & S2).
  eexists. split; [reflexivity|].
  change (match s with SVal v => if emptyp v then [] else [v] | SChoice _ l => l end) with (selts s).
  split; [now apply selts_ok|]. split; auto. destruct s as [v|a l]; cbn [selts].
  - destruct (emptyp v); repeat constructor. intros [].
  - destruct S1 as (F & S1 & _). now apply ssorted_nodup.
Qed.
Lemma rep_new n Q : (0 < n)%N -> (forall x, ~ Q x) -> forall z, hs_rep {| slots := repeat EMPTYV (N.to_nat n); n_elts := z |} Q.
Proof.
  intros Hn HQ z.
  assert (Hin : forall c x, In c (repeat EMPTYV (N.to_nat n)) -> In x (lelts c) -> False).
  { intros c x Hc Hx. apply repeat_spec in Hc. subst c. exact Hx. }
  constructor; cbn [slots].
  - destruct (N.to_nat n) eqn:E; [lia|discriminate].
  - apply Forall_forall. intros c Hc. apply repeat_spec in Hc. subst c. split; [now left|exact I].
  - intros i c x Hi Hx. exfalso. eapply Hin; eauto. eapply nth_error_In; eauto.
  - intros x. split; [intros Hx; now apply HQ in Hx|]. intros (c & Hc & Hx). exfalso. eapply Hin; eauto.
Qed.
(** All the elements, once each. *)
Lemma slots_elts_gen h P : hs_rep h P -> forall cs pre, slots h = pre ++ cs ->
  exists l, slots_elts cf cs = Some l /\ Forall elt_ok l /\ NoDup l /\
    (forall x, In x l <-> exists c, In c cs /\ In x (lelts c)) /\
    (forall x, In x l -> length pre <= sbucket sc h x).
Proof.
  intros H. induction cs as [|c cs IH]; intros pre E; cbn [slots_elts].
  - exists []. split; auto. split; auto. split; [constructor|]. split; [intros x; split; [intros []|intros (c & [] & _)]|intros x []].
  - destruct (IH (pre ++ [c])) as (r & -> & F & N & M & L). { rewrite <- app_assoc. exact E. }
    assert (Hc : In c (slots h)) by (rewrite E, in_app_iff; simpl; auto).
    destruct (Forall_in _ _ _ (rep_ok _ _ H) Hc) as [O _].
    destruct (content_spec c O) as (l & -> & Fl & Nl & Ml).
    assert (Hi : forall x, In x l -> sbucket sc h x = length pre).
    { intros x Hx. apply (rep_hash _ _ H _ c); [|now apply Ml]. rewrite E, nth_error_app2, Nat.sub_diag by lia. reflexivity. }
    exists (l ++ r). split; auto. split; [now apply Forall_app|]. split.
    + clear -Nl N Hi L. rewrite app_length in L. cbn [length] in L. induction Nl as [|x l Hx Nl IHl]; auto.
      cbn [app]. constructor.
      * rewrite in_app_iff. intros [?|Hr]; auto. apply L in Hr. rewrite Hi in Hr by now left. lia.
      * apply IHl. intros y Hy. apply Hi. now right.
    + split.
      * intros x. rewrite in_app_iff, Ml, M. split.
        -- intros [Hx|(d & Hd & Hx)]; [exists c|exists d]; simpl; auto.
        -- intros (d & [->|Hd] & Hx); auto. right. eauto.
      * intros x Hx. apply in_app_iff in Hx as [Hx|Hx]; [rewrite Hi by auto; lia|]. apply L in Hx. rewrite app_length in Hx. simpl in Hx. lia.
Qed.
Lemma slots_elts_spec h P : hs_rep h P -> exists l, slots_elts cf (slots h) = Some l /\ Forall elt_ok l /\ NoDup l /\
  forall x, In x l <-> P x.
Proof.
  intros H. destruct (slots_elts_gen h P H (slots h) [] eq_refl) as (l & E & F & N & M & _).
  exists l. split; auto. split; auto. split; auto. intros x. now rewrite M, (rep_mem _ _ H).
Qed.
Definition target_ok (h : hashset) (target : N) : Prop :=
  (target = 0 -> grow_target sc (n_elts h) < 1610612741)%N.
Lemma grow_spec h P target : hs_rep h P -> target_ok h target ->
  exists h', grow_hashset sc cf h target = Some h' /\ hs_rep h' P /\ n_elts h' = n_elts h.
Proof.
  intros H T. unfold grow_hashset.
  assert (exists n, (if (target =? 0)%N then get_hashtable_size (grow_target sc (n_elts h)) else Some target) = Some n /\ (0 < n)%N) as (n & -> & Hn).
  { destruct (N.eqb_spec target 0) as [->|D]; [|exists target; split; auto; lia].
    destruct (sizes_exist _ (T eq_refl)) as [s E]. exists s. split; auto. apply sizes_pos in E. lia. }
  destruct (slots_elts_spec h P H) as (l & -> & F & _ & M).
  destruct (add_raw_all_spec l F _ _ (rep_new n (fun _ => False) Hn (fun _ f => f) (n_elts h))) as (h' & -> & H' & N').
  exists h'. split; auto. split; auto. eapply rep_ext; [|exact H']. intros x. cbn beta. rewrite M. tauto.
Qed.

(** hashset_test_add: the key becomes a member.  The result is 1 for a new member; for an
    old one it is 0 unless the bucket is an accumulator. *)
Lemma elt_void k : elt_ok k -> (voidp k || emptyp k)%bool = false.
Proof.
  intros Hk. rewrite (elt_nonempty k Hk). destruct (voidp k) eqn:E; auto. exfalso. destruct Hk as (_ & _ & Hv & _). apply Hv.
  destruct k; try discriminate E. unfold voidp in E. unfold KVOID. f_equal. now apply N.eqb_eq.
Qed.
Lemma pre_not_equal p k : lv_ok (Pre p) -> lv_big (Pre p) -> elt_ok k -> equal_to cf (SVal k) (Pre p) = Some false.
Proof.
  intros O B Hk. unfold equal_to. cbn [consp]. destruct (negb (negb (atomicp k))) eqn:E; auto.
  destruct (simplify_spec cf (Pre p) Hcf O) as (s & -> & R1 & R2). f_equal.
  assert (Hch : choicep s = true) by (eapply represents_two; [split; [exact R1|exact R2]|exact B]).
  destruct s as [v|a l]; [discriminate|]. cbn [toval]. destruct (lequal k (VChoice l)) eqn:El; auto. exfalso.
  apply leq_eq in El; [|apply Hk|]. { now apply Hk in El. }
  apply (toval_vp (SChoice a l)); auto.
Qed.
Lemma test_add_spec h P k : hs_rep h P -> elt_ok k ->
  exists r h', test_add sc cf h k = Some (r, h') /\ hs_rep h' (fun x => P x \/ x = k) /\ n_elts h' = n_elts h /\
    (~ P k -> r = true) /\ (P k -> settled h k -> r = false).
Proof.
  intros H Hk. unfold test_add. rewrite elt_void by auto.
  destruct (slot_at h P k H) as (c & E & O & B & M). rewrite E.
  destruct (elt_single k Hk) as (O1 & B1 & M1).
  assert (Old : P k -> hs_rep h (fun x => P x \/ x = k)).
  { intros Hp. eapply rep_ext; [|exact H]. intros x. split; auto. intros [| ->]; auto. }
  assert (Add : exists h', (do c' <- add_to_choice cf false c (Simple (SVal k)); Some (true, with_slot h (sbucket sc h k) c')) = Some (true, h') /\
            hs_rep h' (fun x => P x \/ x = k) /\ n_elts h' = n_elts h).
  { destruct (add_to_choice_spec cf false c (Simple (SVal k)) Hcf O B O1 B1) as (r & -> & R1 & R2 & R3).
    eexists. split; [reflexivity|]. split; auto. apply (rep_plus h P k c); auto. intros x. now rewrite R3, M1. }
  destruct c as [[v|a l]|p].
  - destruct (emptyp v) eqn:Ev.
    { eexists true, _. split; [reflexivity|]. split; [|split; auto; split; auto; intros Hp; apply M in Hp; cbn in Hp; rewrite Ev in Hp; destruct Hp].
      apply (rep_plus h P k (Simple (SVal v))); auto. intros x. rewrite M1. cbn. rewrite Ev. simpl. tauto. }
    assert (Hv : elt_ok v) by (destruct O as [->|]; auto; discriminate).
    destruct (lequal v k) eqn:El.
    + apply leq_eq in El; [|apply Hv|apply Hk]. subst v.
      assert (P k) by (apply M; cbn [lelts]; rewrite selts_elt by auto; now left).
      exists false, h. split; [reflexivity|]. split; [now apply Old|]. split; [reflexivity|]. split; [tauto|reflexivity].
    + destruct Add as (h' & -> & R & N). exists true, h'. split; [reflexivity|]. split; [exact R|]. split; [exact N|]. split; [reflexivity|].
      intros Hp. exfalso. apply M in Hp. cbn [lelts] in Hp. rewrite selts_elt in Hp by auto. destruct Hp as [->|[]].
      rewrite (proj2 (leq_eq k k (proj1 Hk) (proj1 Hk)) eq_refl) in El. discriminate.
  - pose proof O as (F & S1 & _). destruct (containsp_spec l k) as (b & -> & Hb); auto.
    destruct b.
    + assert (P k) by (apply M; now apply Hb). exists false, h. split; [reflexivity|]. split; [now apply Old|]. split; [reflexivity|]. split; [tauto|reflexivity].
    + destruct Add as (h' & -> & R & N). exists true, h'. split; [reflexivity|]. split; [exact R|]. split; [exact N|]. split; [reflexivity|].
      intros Hp. apply M in Hp. apply Hb in Hp. discriminate.
  - rewrite (pre_not_equal p k O B Hk). destruct Add as (h' & -> & R & N). exists true, h'. split; [reflexivity|]. split; [exact R|]. split; [exact N|].
    split; [reflexivity|]. intros _ [s Es]. congruence.
Qed.
Lemma test_drop_spec h P k : hs_rep h P -> elt_ok k -> P k -> settled h k ->
  exists h', test_drop sc cf h k = Some (true, h') /\ hs_rep h' (fun x => P x /\ x <> k) /\ n_elts h' = n_elts h.
Proof.
  intros H Hk Hp [s Es]. unfold test_drop. rewrite Es.
  destruct (slot_at h P k H) as (c & E & O & B & M). rewrite Es in E. injection E as <-.
  destruct (elt_single k Hk) as (O1 & B1 & M1). apply M in Hp.
  destruct (difference_spec cf (Simple s) (Simple (SVal k)) Hcf O O1) as (r & Er & R1 & R2 & R3).
  assert (Diff : exists h', (do c' <- kno_difference cf (Simple s) (Simple (SVal k)); Some (true, with_slot h (sbucket sc h k) c')) = Some (true, h') /\
            hs_rep h' (fun x => P x /\ x <> k) /\ n_elts h' = n_elts h).
  { rewrite Er. eexists. split; [reflexivity|]. split; auto. apply (rep_minus h P k (Simple s)); auto. intros x. now rewrite R3, M1. }
  destruct s as [v|a l].
  - cbn in Hp. destruct (emptyp v) eqn:Ev; [destruct Hp|]. destruct Hp as [->|[]].
    rewrite (proj2 (leq_eq k k (proj1 Hk) (proj1 Hk)) eq_refl). eexists. split; [reflexivity|]. split; auto.
    apply (rep_minus h P k (Simple (SVal k))); auto; [now left|]. intros x. rewrite M1. simpl. tauto.
  - pose proof O as (F & S1 & _). destruct (containsp_spec l k) as (b & -> & Hb); auto.
    apply Hb in Hp. subst b. exact Diff.
Qed.
Lemma mod_add_spec h P k : hs_rep h P -> elt_ok k -> (grow_target sc (n_elts h + 1) < 1610612741)%N ->
  exists r h', hashset_mod sc cf h k true = Some (r, h') /\ hs_rep h' (fun x => P x \/ x = k) /\
    n_elts h' = (n_elts h + (if r then 1 else 0))%Z /\ (~ P k -> r = true) /\ (P k -> settled h k -> r = false).
Proof.
  intros H Hk T. unfold hashset_mod. destruct (test_add_spec h P k H Hk) as (r & h1 & -> & H1 & N1 & A1 & A2).
  destruct r.
  - set (h2 := with_count h1 (n_elts h1 + 1)).
    assert (H2 : hs_rep h2 (fun x => P x \/ x = k)) by (destruct H1 as [B1 B2 B3 B4]; now constructor).
    destruct (grow_when sc (n_elts h1) (s_buckets h2)).
    + destruct (grow_spec h2 _ 0 H2) as (h3 & -> & H3 & N3). { intros _. unfold h2. cbn. now rewrite N1. }
      exists true, h3. split; auto. split; auto. split; [rewrite N3; unfold h2; cbn; lia|]. split; auto.
    + exists true, h2. split; auto. split; auto. split; [unfold h2; cbn; lia|]. split; auto.
  - exists false, h1. split; auto. split; auto. split; [lia|]. split; auto.
Qed.
Lemma mod_drop_spec h P k : hs_rep h P -> elt_ok k -> P k -> settled h k ->
  exists h', hashset_mod sc cf h k false = Some (true, h') /\ hs_rep h' (fun x => P x /\ x <> k) /\ n_elts h' = (n_elts h - 1)%Z.
Proof.
  intros H Hk Hp Hs. unfold hashset_mod. destruct (test_drop_spec h P k H Hk Hp Hs) as (h1 & -> & H1 & N1).
  eexists. split; [reflexivity|]. split; [destruct H1 as [B1 B2 B3 B4]; now constructor|cbn; lia].
Qed.

(** ** Counting *)
Definition counts (n : Z) (P : val -> Prop) (extra : Z) : Prop :=
  exists ks, NoDup ks /\ (forall x, In x ks <-> P x) /\ n = (Z.of_nat (length ks) + extra)%Z.
Lemma counts_ext n P Q e : (forall x, P x <-> Q x) -> counts n P e -> counts n Q e.
Proof. intros E (ks & N & M & C). exists ks. split; auto. split; auto. intros x. now rewrite M, E. Qed.
Lemma in_dec_val (k : val) ks : In k ks \/ ~ In k ks.
Proof.
  induction ks as [|a l [IH|IH]]; [right; intros []|left; now right|].
  destruct (val_dec a k) as [->|D]; [left; now left|right; intros [?|?]; auto].
Qed.
Lemma counts_dec n P e k : counts n P e -> P k \/ ~ P k.
Proof. intros (ks & _ & M & _). destruct (in_dec_val k ks) as [H|H]; [left|right]; now rewrite <- M. Qed.
Lemma counts_new n P e k : counts n P e -> ~ P k -> counts (n + 1) (fun x => P x \/ x = k) e.
Proof.
  intros (ks & N & M & C) Hk. exists (k :: ks). split; [constructor; auto; now rewrite M|]. split; [|simpl length; lia].
  intros x. simpl. rewrite M. assert (k = x <-> x = k) by (split; congruence). tauto.
Qed.
Lemma counts_old n P e k r : counts n P e -> P k -> counts (n + r) (fun x => P x \/ x = k) (e + r).
Proof.
  intros (ks & N & M & C) Hk. exists ks. split; auto. split; [|lia]. intros x. rewrite M. split; auto. intros [| ->]; auto.
Qed.
Lemma counts_drop n P e k : counts n P e -> P k -> counts (n - 1) (fun x => P x /\ x <> k) e.
Proof.
  intros (ks & N & M & C) Hk. apply M in Hk. apply in_split in Hk as (l1 & l2 & ->).
  exists (l1 ++ l2). split; [now apply NoDup_remove_1 in N|]. split; [|rewrite !app_length in *; simpl in *; lia].
  intros x. rewrite <- M, !in_app_iff. simpl. apply NoDup_remove_2 in N. rewrite in_app_iff in N. split.
  - intros Hx. split; [tauto|]. intros ->. tauto.
  - intros [[?|[?|?]] ?]; auto. congruence.
Qed.
Lemma counts_zero P e : counts 0 P e -> (0 <= e)%Z -> e = 0%Z /\ forall x, ~ P x.
Proof.
  intros (ks & _ & M & C) He. destruct ks as [|k ks]; simpl length in C; [|lia]. split; [lia|]. intros x Hx. now apply M in Hx.
Qed.
Lemma mod_all_spec l : Forall elt_ok l -> NoDup l -> forall h P e z, hs_rep h P -> counts (n_elts h) P e ->
  (forall n, (n_elts h <= n <= n_elts h + Z.of_nat (length l))%Z -> (grow_target sc n < 1610612741)%N) ->
  exists r h' e', mod_all sc cf h l z = Some ((z + r)%Z, h') /\ hs_rep h' (fun x => P x \/ In x l) /\
    n_elts h' = (n_elts h + r)%Z /\ counts (n_elts h') (fun x => P x \/ In x l) e' /\ (e <= e')%Z /\
    (0 <= r <= Z.of_nat (length l))%Z /\ ((forall x, In x l -> ~ P x) -> e' = e /\ r = Z.of_nat (length l)).
Proof.
  induction 1 as [|k l Hk Hl IH]; intros Nd h P e z H C T; cbn [mod_all].
  - exists 0%Z, h, e. rewrite Z.add_0_r. split; auto. assert (X : forall x, P x <-> P x \/ In x []) by (intros x; simpl; tauto).
    split; [now apply (rep_ext h P)|]. split; [lia|]. split; [now apply (counts_ext _ P)|]. split; [lia|]. split; [simpl; lia|auto].
  - inversion Nd as [|? ? Nk Nd']; subst.
    destruct (mod_add_spec h P k H Hk) as (r & h1 & -> & H1 & N1 & A1 & _). { apply T. simpl length. lia. }
    assert (X : exists e1, counts (n_elts h1) (fun x => P x \/ x = k) e1 /\ (e <= e1)%Z /\ (~ P k -> e1 = e)).
    { destruct (counts_dec _ _ _ k C) as [D|D].
      - exists (e + (if r then 1 else 0))%Z. rewrite N1. split; [now apply counts_old|]. split; [destruct r; lia|tauto].
      - rewrite (A1 D) in N1. exists e. rewrite N1. split; [now apply counts_new|]. split; [lia|auto]. }
    destruct X as (e1 & C1 & L1 & X1).
    destruct (IH Nd' h1 _ e1 (if r then z + 1 else z)%Z H1 C1) as (r2 & h2 & e2 & E2 & H2 & N2 & C2 & L2 & B2 & Fr2).
    { intros n Hn. apply T. simpl length. destruct r; lia. }
    exists ((if r then 1 else 0) + r2)%Z, h2, e2.
    assert (Y : forall x, (P x \/ x = k) \/ In x l <-> P x \/ In x (k :: l)).
    { intros x. simpl. assert (k = x <-> x = k) by (split; congruence). tauto. }
    split; [rewrite E2; do 2 f_equal; destruct r; lia|]. split; [eapply rep_ext; [|exact H2]; exact Y|].
    split; [rewrite N2, N1; lia|]. split; [eapply counts_ext; [|exact C2]; exact Y|]. split; [lia|].
    split; [simpl length; destruct r; lia|]. intros Hfr.
    assert (Dk : ~ P k) by (apply Hfr; now left). destruct Fr2 as [-> ->].
    + intros x Hx [Hp| ->]; [|tauto]. now apply (Hfr x (or_intror Hx)).
    + rewrite (A1 Dk). split; auto. simpl length. lia.
Qed.

(** ** Listings *)
Lemma collect_all_spec cs : Forall (fun c => lv_ok c /\ lv_big c) cs -> forall acc P, vgood acc P ->
  exists r, collect_all cf acc cs = Some r /\ vgood r (fun y => P y \/ exists c, In c cs /\ In y (lelts c)).
Proof.
  induction 1 as [|c cs [O B] Hcs IH]; intros acc P G; cbn [collect_all].
  - exists acc. split; auto. destruct G as (G1 & G2 & G3). split; auto. split; auto. intros y. rewrite G3.
    split; auto. intros [?|(c & [] & _)]; auto.
  - destruct (lemptyp c) eqn:E.
    + destruct (IH acc P G) as (r & -> & G1 & G2 & G3). exists r. split; auto. split; auto. split; auto.
      assert (El : lelts c = []).
      { destruct c as [s|p]; [|discriminate]. cbn [lelts]. apply is_empty_selts; auto. }
      intros y. rewrite G3. split; [intros [?|(d & ? & ?)]; [auto|right; exists d; simpl; auto]|].
      intros [?|(d & [<-|?] & Hy)]; [auto|rewrite El in Hy; destruct Hy|right; eauto].
    + destruct (simplify_spec cf c Hcf O) as (s & -> & S1 & S2). destruct G as (G1 & G2 & G3).
      destruct (add_to_choice_spec cf false acc (Simple s) Hcf G1 G2) as (r & -> & R1 & R2 & R3); [exact S1|exact I|].
      destruct (IH r (fun y => P y \/ In y (lelts c))) as (r' & -> & Q1 & Q2 & Q3).
      { split; auto. split; auto. intros y. rewrite R3, G3. cbn [lelts]. now rewrite S2. }
      exists r'. split; auto. split; auto. split; auto. intros y. rewrite Q3. split.
      * intros [[?|?]|(d & ? & ?)]; [auto|right; exists c; simpl; auto|right; exists d; simpl; auto].
      * intros [?|(d & [<-|?] & Hy)]; auto. right. eauto.
Qed.
Lemma elts_spec h P : hs_rep h P -> (n_elts h = 0%Z -> forall x, ~ P x) ->
  exists s, hashset_elts cf h = Some (Simple s) /\ represents s P.
Proof.
  intros H Hz. unfold hashset_elts. destruct (Z.eqb_spec (n_elts h) 0) as [E|E].
  - exists (SVal KEMPTY). split; auto. split; [now left|]. intros x. simpl. split; [tauto|]. now apply Hz.
  - destruct (collect_all_spec _ (rep_ok _ _ H) EMPTYV (fun _ => False) emptyv_good) as (r & -> & G1 & G2 & G3).
    destruct (simplify_spec cf r Hcf G1) as (s & -> & S1 & S2). exists s. split; auto. split; auto.
    intros x. rewrite S2, G3, (rep_mem _ _ H). tauto.
Qed.
Lemma vec_fill_spec cs l : slots_elts cf cs = Some l -> forall room, (Z.of_nat (length l) <= room)%Z ->
  vec_fill cf room cs = Some (Some l).
Proof.
  revert l. induction cs as [|c cs IH]; cbn [slots_elts vec_fill]; intros l E room L.
  - now injection E as <-.
  - destruct (content_elts cf c) as [l1|]; [|discriminate]. destruct (slots_elts cf cs) as [r|]; [|discriminate].
    injection E as <-. rewrite app_length in L. destruct (Z.ltb_spec (room - Z.of_nat (length l1)) 0); [lia|].
    rewrite (IH r eq_refl) by lia. reflexivity.
Qed.
End Sets.

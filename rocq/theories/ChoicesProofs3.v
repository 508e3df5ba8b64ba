(** * Proofs about adding values and set operations. *)
From Coq Require Import Lia Permutation Sorting.Sorted.
From Verif Require Import ValueModel ValueProofs SortModel SortProofs ChoicesModel ChoicesProofs ChoicesProofs2.

Definition lelts (x : lv) : list val :=
  match x with Simple s => selts s | Pre p => pelts p end.
Definition lv_ok (x : lv) : Prop :=
  match x with Simple s => simple_ok s | Pre p => pre_ok p end.
(** An accumulator as built by adding unequal values: at least two elements. *)
Definition lv_big (x : lv) : Prop :=
  match x with Simple _ => True | Pre p => two_distinct (pelts p) end.

Lemma lelts_ok x : lv_ok x -> Forall elt_ok (lelts x).
Proof. destruct x as [s|p]; simpl; intros H; [now apply selts_ok|now apply pelts_ok]. Qed.
Lemma simplify_spec cf x : cfg_ok cf -> lv_ok x ->
  exists s, simplify cf x = Some s /\ represents s (fun v => In v (lelts x)).
Proof.
  intros Hcf. destruct x as [s|p]; simpl; intros H.
  - exists s. split; auto. now apply represents_self.
  - destruct (normalize_spec cf p Hcf H) as (s & p' & -> & R & _). eauto.
Qed.

Lemma vp_choice l : Forall vp l -> vp (VChoice l).
Proof.
  intros H. split.
  - rewrite vok_eq. apply forallb_forall. intros x Hx. rewrite Forall_forall in H. now destruct (H x Hx).
  - cbn [plain]. rewrite plain_all. apply forallb_forall. intros x Hx. rewrite Forall_forall in H. now destruct (H x Hx).
Qed.
Lemma vp_empty : vp KEMPTY. Proof. split; reflexivity. Qed.
Lemma toval_vp s : simple_ok s -> vp (toval s).
Proof.
  destruct s as [v|a l]; simpl.
  - intros [->|H]; auto. apply vp_empty.
  - intros (F & _). now apply vp_choice, elts_vp.
Qed.
Lemma toval_inj s t : simple_ok s -> simple_ok t -> toval s = toval t -> selts s = selts t /\ choicep s = choicep t.
Proof.
  destruct s as [v|a l], t as [w|b m]; simpl; intros Hs Ht E; subst; auto.
  - destruct Hs as [|(_ & _ & _ & _ & H)]; [discriminate|]. now specialize (H m).
  - destruct Ht as [|(_ & _ & _ & _ & H)]; [discriminate|]. now specialize (H l).
  - injection E as <-. auto.
Qed.
Lemma is_empty_selts s : simple_ok s -> (is_empty s = true <-> selts s = []).
Proof.
  destruct s as [v|a l]; simpl.
  - intros _. destruct (emptyp v); split; auto; discriminate.
  - intros (_ & _ & L & _). split; [discriminate|]. intros ->. simpl in L. lia.
Qed.
Lemma not_empty_selts s : simple_ok s -> is_empty s = false -> selts s <> [].
Proof. intros H E E'. apply is_empty_selts in E'; auto. congruence. Qed.
Lemma choice_size_selts s : choice_size s = length (selts s).
Proof. destruct s as [v|a l]; simpl; auto. destruct (emptyp v); auto. Qed.
Lemma atomic_simple_aok s : simple_ok s -> Forall (aok (atomic_simple s)) (selts s).
Proof.
  destruct s as [v|a l]; simpl.
  - intros _. destruct (emptyp v); constructor; auto. intros E; exact E.
  - tauto.
Qed.
Lemma aok_and a b x : aok a x -> aok (a && b) x.
Proof. unfold aok. intros H E. apply andb_true_iff in E. tauto. Qed.
Lemma aok_and2 a b x : aok b x -> aok (a && b) x.
Proof. unfold aok. intros H E. apply andb_true_iff in E. tauto. Qed.

Lemma make_prechoice_spec cf x y : cfg_ok cf -> lv_ok x -> lv_ok y ->
  lelts x <> [] -> lelts y <> [] ->
  (exists v, (In v (lelts x) /\ ~ In v (lelts y)) \/ (In v (lelts y) /\ ~ In v (lelts x))) ->
  exists p, make_prechoice cf x y = Some p /\ pre_ok p /\
    (forall v, In v (pelts p) <-> In v (lelts x) \/ In v (lelts y)) /\ two_distinct (pelts p).
Proof.
  intros Hcf Hx Hy Nx Ny D. unfold make_prechoice.
  destruct (simplify_spec cf x Hcf Hx) as (nx & -> & Rx & Ex).
  destruct (simplify_spec cf y Hcf Hy) as (ny & -> & Ry & Ey).
  assert (Ix : is_empty nx = false).
  { destruct (is_empty nx) eqn:E; auto. apply is_empty_selts in E; auto. exfalso. apply Nx.
    destruct (lelts x) as [|v l]; auto. exfalso. rewrite E in Ex. apply (Ex v). now left. }
  assert (Iy : is_empty ny = false).
  { destruct (is_empty ny) eqn:E; auto. apply is_empty_selts in E; auto. exfalso. apply Ny.
    destruct (lelts y) as [|v l]; auto. exfalso. rewrite E in Ey. apply (Ey v). now left. }
  assert (Hne : toval nx <> toval ny).
  { intros E. destruct (toval_inj nx ny Rx Ry E) as [E1 _]. destruct D as (v & [[D1 D2]|[D1 D2]]).
    - apply D2, Ey. rewrite <- E1. now apply Ex.
    - apply D2, Ex. rewrite E1. now apply Ey. }
  cbn zeta. eexists. split; [reflexivity|].
  set (nst := (if choicep nx then 1 else 0) + (if choicep ny then 1 else 0)).
  set (d := if nst =? 0 then match cons_compare (toval nx) (toval ny) with Gt => [ny; nx] | _ => [nx; ny] end
            else [nx; ny]).
  assert (Hd : d = [nx; ny] \/ d = [ny; nx]).
  { unfold d. destruct (nst =? 0); auto. destruct (cons_compare (toval nx) (toval ny)); auto. }
  match goal with |- pre_ok ?q /\ _ => set (p := q) end.
  assert (Hmem : forall v, In v (pelts p) <-> In v (selts nx) \/ In v (selts ny)).
  { intros v. unfold pelts, p. cbn [data]. destruct Hd as [->| ->]; simpl; rewrite !in_app_iff; simpl; tauto. }
  assert (Hok : pre_ok p).
  { constructor; cbn [data cap nested psize muddled patomic pnorm p].
    - destruct Hd as [->| ->]; repeat constructor; auto.
    - destruct Hd as [->| ->]; simpl; lia.
    - destruct Hd as [->| ->]; simpl; unfold nst; destruct (choicep nx), (choicep ny); reflexivity.
    - rewrite !choice_size_selts. unfold pelts, p. cbn [data].
      destruct Hd as [->| ->]; simpl; rewrite !app_length; simpl; lia.
    - apply Forall_forall. intros v Hv. apply Hmem in Hv.
      destruct Hv as [Hv|Hv]; [apply aok_and|apply aok_and2];
        eapply Forall_in; [apply atomic_simple_aok| |apply atomic_simple_aok|]; eauto.
    - intros E _. unfold pelts, p. cbn [data]. unfold d.
      destruct (nst =? 0) eqn:En; [|discriminate]. apply Nat.eqb_eq in En. unfold nst in En.
      destruct nx as [v|]; [|simpl in En; lia]. destruct ny as [w|]; [|simpl in En; lia].
      assert (elt_ok v) by (now apply entry_sval). assert (elt_ok w) by (now apply entry_sval).
      simpl toval in *.
      assert (Hl : forall a b, elt_ok a -> elt_ok b -> lt a b -> ssorted (flat_map selts [SVal a; SVal b])).
      { intros a b Ha Hb Hab. cbn [flat_map]. rewrite !selts_elt by auto. simpl.
        repeat constructor. exact Hab. }
      destruct (cons_compare v w) eqn:Ec.
      + exfalso. apply Hne. now apply cmp_eq; auto.
      + now apply Hl.
      + apply Hl; auto. unfold lt. rewrite (cmp_opp v w) by auto. now rewrite Ec.
    - intros _ a b r E. destruct Hd as [H|H]; rewrite H in E; injection E as <- <- <-; congruence.
    - discriminate. }
  split; auto. split.
  - intros v. rewrite Hmem, Ex, Ey. tauto.
  - destruct D as (v & D).
    destruct (lelts x) as [|u lx] eqn:Elx; [congruence|]. destruct (lelts y) as [|w ly] eqn:Ely; [congruence|].
    destruct D as [[D1 D2]|[D1 D2]].
    + exists v, w. rewrite !Hmem, !Ex, !Ey. repeat split; auto; [right; now left|].
      intros ->. apply D2. now left.
    + exists v, u. rewrite !Hmem, !Ex, !Ey. repeat split; auto; [left; now left|].
      intros ->. apply D2. now left.
Qed.

Lemma last_in {A} (l : list A) x r : rev l = x :: r -> exists l', l = l' ++ [x].
Proof. intros H. exists (rev r). rewrite <- (rev_involutive l), H. reflexivity. Qed.

Lemma ssorted_snoc l x y : Forall vp (l ++ [x]) -> vp y -> ssorted (l ++ [x]) -> lt x y -> ssorted ((l ++ [x]) ++ [y]).
Proof.
  unfold ssorted. induction l as [|a l IH]; intros V Vy S H; simpl in *.
  - repeat constructor; auto.
  - inversion V; inversion S; subst. constructor; [apply IH; auto|].
    apply Forall_app. split; auto. constructor; auto.
    assert (lt a x). { eapply Forall_in; eauto. apply in_or_app. right. now left. }
    apply (lt_trans a x y); auto. eapply Forall_in; [exact H3|]. apply in_or_app. right. now left.
Qed.

Lemma prechoice_add_spec cf p v : cfg_ok cf -> pre_ok p -> lv_ok v ->
  exists p', prechoice_add cf p v = Some p' /\ pre_ok p' /\
    (forall x, In x (pelts p') <-> In x (pelts p) \/ In x (lelts v)).
Proof.
  intros Hcf Hp Hv. unfold prechoice_add.
  destruct (simplify_spec cf v Hcf Hv) as (nv & -> & Rv & Ev).
  destruct (is_empty nv) eqn:Ie.
  { exists p. split; auto. split; auto. intros x. apply is_empty_selts in Ie; auto.
    rewrite <- Ev, Ie. simpl. tauto. }
  set (cmpv := match rev (data p) with [] => Gt | lastv :: _ => cons_compare (toval lastv) (toval nv) end).
  destruct (is_eq cmpv) eqn:Ee.
  { exists p. split; auto. split; auto. intros x. unfold cmpv in Ee.
    destruct (rev (data p)) as [|lst r] eqn:Er; [discriminate|].
    destruct (last_in _ _ _ Er) as (l' & El).
    assert (Hl : entry_ok lst).
    { eapply Forall_in; [apply (po_data p Hp)|]. rewrite El. apply in_or_app. right. now left. }
    assert (Eq' : toval lst = toval nv).
    { apply cmp_eq; [apply toval_vp; apply Hl|now apply toval_vp|].
      destruct (cons_compare (toval lst) (toval nv)); auto; discriminate. }
    destruct (toval_inj _ _ (proj1 Hl) Rv Eq') as [E _].
    rewrite <- Ev, <- E. split; auto. intros [|Hx]; auto.
    unfold pelts. apply in_flat_map. exists lst. split; auto. rewrite El. apply in_or_app. right. now left. }
  set (cap' := if cap p <=? length (data p) then cap p * 2 else cap p).
  pose proof (po_cap p Hp) as Hcap.
  assert (Hcap' : length (data p) < cap').
  { unfold cap'. destruct (Nat.leb_spec (cap p) (length (data p))); lia. }
  destruct (Nat.leb_spec cap' (length (data p))); [lia|]. clear H.
  cbn zeta. eexists. split; [reflexivity|].
  match goal with |- pre_ok ?q /\ _ => set (p' := q) end.
  assert (Hel : pelts p' = pelts p ++ selts nv).
  { unfold pelts, p'. cbn [data]. rewrite flat_map_app. simpl. now rewrite app_nil_r. }
  assert (Hent : entry_ok nv) by (split; auto).
  split.
  - constructor; rewrite ?Hel; cbn [data cap nested psize muddled patomic pnorm p'].
    + apply Forall_app. split; [apply (po_data p Hp)|auto].
    + rewrite app_length. simpl. lia.
    + rewrite filter_app, app_length, <- (po_nested p Hp). simpl. destruct (choicep nv); simpl; lia.
    + rewrite app_length, <- (po_size p Hp), choice_size_selts.
      destruct nv as [w|a l]; simpl; [|reflexivity]. simpl in Ie. rewrite Ie. simpl. lia.
    + apply Forall_app. split.
      * eapply Forall_impl; [|apply (po_atomic p Hp)]. intros x. apply aok_and.
      * apply Forall_forall. intros x Hx. apply aok_and2.
        assert (Ha : aok (atomic_simple nv) x) by (eapply Forall_in; [apply atomic_simple_aok|]; eauto).
        destruct nv as [w|a l]; simpl in *; auto. rewrite negb_involutive. exact Ha.
    + intros Hm Hn. destruct (choicep nv) eqn:Ec; [discriminate|].
      rewrite orb_false_r in Hm. apply orb_false_iff in Hm. destruct Hm as [Hm Hc].
      pose proof (po_sorted p Hp Hm Hn) as S.
      destruct nv as [w|]; [|discriminate]. assert (Hw : elt_ok w) by (now apply entry_sval).
      rewrite selts_elt by auto.
      unfold cmpv in Hc, Ee. destruct (rev (data p)) as [|lst r] eqn:Er; [discriminate|].
      destruct (last_in _ _ _ Er) as (l' & El).
      assert (Hl : entry_ok lst).
      { eapply Forall_in; [apply (po_data p Hp)|]. rewrite El. apply in_or_app. right. now left. }
      assert (Hlc : choicep lst = false).
      { pose proof (po_nested p Hp) as Hn'. rewrite Hn, El, filter_app, app_length in Hn'. simpl in Hn'.
        destruct (choicep lst); auto. simpl in Hn'. lia. }
      destruct lst as [u|]; [|discriminate]. assert (Hu : elt_ok u) by (now apply entry_sval).
      assert (Hpe : pelts p = flat_map selts l' ++ [u]).
      { unfold pelts. rewrite El, flat_map_app. cbn [flat_map]. now rewrite selts_elt, app_nil_r. }
      pose proof (pelts_ok p Hp) as Hpo. rewrite Hpe in *.
      apply ssorted_snoc; auto.
      simpl toval in *. unfold lt. destruct (cons_compare u w); auto; discriminate.
    + intros Hn x y r E.
      destruct (choicep nv) eqn:Ec; [discriminate|].
      destruct (data p) as [|d0 [|d1 dr]] eqn:Ed.
      * discriminate.
      * simpl in E. injection E as <- <- _.
        unfold cmpv in Ee. simpl in Ee. intros ->.
        rewrite cmp_refl in Ee by (now apply toval_vp). discriminate.
      * simpl in E. injection E as <- <- _. eapply (po_two p Hp Hn); eauto.
    + discriminate.
  - intros x. rewrite Hel, in_app_iff. rewrite <- Ev. tauto.
Qed.

Lemma two_distinct_incl l m : two_distinct l -> (forall x, In x l -> In x m) -> two_distinct m.
Proof. intros (x & y & Hx & Hy & Hn) H. exists x, y. auto. Qed.

Lemma vp_dec (x y : val) : vp x -> vp y -> x = y \/ x <> y.
Proof.
  intros Hx Hy. pose proof (leq_eq x y Hx Hy). destruct (lequal x y); [left; tauto|right; intros E; apply H in E; discriminate].
Qed.
Lemma toval_neq_diff s t : simple_ok s -> simple_ok t -> toval s <> toval t ->
  exists v, (In v (selts s) /\ ~ In v (selts t)) \/ (In v (selts t) /\ ~ In v (selts s)).
Proof.
  intros Hs Ht Hne.
  destruct (selts_ok s Hs) as [Fs Ss]. destruct (selts_ok t Ht) as [Ft St].
  assert (Hdec : forall l m : list val, Forall vp l -> Forall vp m ->
            (exists v, In v l /\ ~ In v m) \/ (forall v, In v l -> In v m)).
  { clear. intros l m Vl Vm. induction l as [|a l IH]; [right; simpl; tauto|].
    inversion Vl; subst. destruct IH as [(v & ? & ?)|IH]; auto; [left; exists v; simpl; auto|].
    assert (Ha : In a m \/ ~ In a m).
    { clear -H1 Vm. induction m as [|b m IH]; [right; simpl; tauto|]. inversion Vm; subst.
      destruct (vp_dec b a); auto; [left; now left|]. destruct IH; auto; [left; now right|].
      right. intros [|]; auto. }
    destruct Ha; [right; intros v [<-|]; auto|left; exists a; simpl; auto]. }
  destruct (Hdec (selts s) (selts t)) as [(v & ?)|H1]; auto; [exists v; auto|].
  destruct (Hdec (selts t) (selts s)) as [(v & ?)|H2]; auto; [exists v; auto|].
  exfalso. apply Hne. apply (represents_unique s t (fun x => In x (selts s))).
  - now apply represents_self.
  - split; auto. intros x. split; auto.
Qed.

Lemma add_to_choice_spec cf shared cur new : cfg_ok cf -> lv_ok cur -> lv_big cur ->
  lv_ok new -> lv_big new ->
  exists r, add_to_choice cf shared cur new = Some r /\ lv_ok r /\ lv_big r /\
    (forall v, In v (lelts r) <-> In v (lelts cur) \/ In v (lelts new)).
Proof.
  intros Hcf Hc Bc Hn Bn. unfold add_to_choice.
  set (skip := match new with Simple (SVal v) => emptyp v || voidp v | _ => false end).
  destruct skip eqn:Es.
  { exists cur. split; auto. split; auto. split; auto. intros v.
    unfold skip in Es. destruct new as [[w|]|]; try discriminate.
    destruct Hn as [->|Hw]; [simpl; tauto|].
    rewrite elt_nonempty, elt_nonvoid in Es by auto. discriminate. }
  assert (Nn : lelts new <> []).
  { unfold skip in Es. destruct new as [[w|a l]|p].
    - destruct Hn as [->|Hw]; [discriminate|]. cbn [lelts]. rewrite selts_elt by auto. discriminate.
    - destruct Hn as (_ & _ & L & _). simpl. intros ->. simpl in L. lia.
    - simpl in *. destruct Bn as (x & y & Hx & _). intros E. rewrite E in Hx. auto. }
  destruct cur as [s|p].
  2:{ simpl in Hc, Bc. destruct (prechoice_add_spec cf p new Hcf Hc Hn) as (p' & -> & P1 & P2).
      exists (Pre p'). split; auto. simpl. split; auto. split; auto.
      eapply two_distinct_incl; eauto. intros x Hx. apply P2. auto. }
  simpl in Hc. destruct (is_empty s) eqn:Ie.
  { apply is_empty_selts in Ie; auto. destruct new as [t|p].
    - exists (Simple t). split; auto. split; auto. split; auto. simpl. rewrite Ie. simpl. tauto.
    - destruct shared.
      + destruct (simplify_spec cf (Pre p) Hcf Hn) as (t & -> & R1 & R2).
        exists (Simple t). split; auto. split; auto. split; [exact I|]. simpl in *. rewrite Ie. simpl.
        intros v. rewrite R2. tauto.
      + exists (Pre p). split; auto. split; auto. split; auto. simpl. rewrite Ie. simpl. tauto. }
  assert (Ns : selts s <> []) by (now apply not_empty_selts).
  destruct (simplify_spec cf new Hcf Hn) as (t & Et & Rt & Mt).
  assert (Heq : exists e, equal_to cf s new = Some e /\ (e = true <-> toval s = toval t)).
  { unfold equal_to. destruct new as [t'|p].
    - simpl in Et. injection Et as <-. exists (lequal (toval s) (toval t')). split; auto.
      apply leq_eq; apply toval_vp; auto.
    - destruct (consp s) eqn:Ecs; simpl negb.
      + rewrite Et. exists (lequal (toval s) (toval t)). split; auto. apply leq_eq; apply toval_vp; auto.
      + exists false. split; auto. split; [discriminate|]. intros E. exfalso.
        destruct (toval_inj s t Hc Rt E) as [_ E']. 
        assert (choicep t = true).
        { eapply represents_two; [split; [exact Rt|exact Mt]|]. exact Bn. }
        destruct s as [v|]; [simpl in E'; congruence|discriminate]. }
  destruct Heq as (e & -> & He). destruct e.
  - exists (Simple s). split; auto. split; auto. split; auto. intros v. simpl lelts.
    destruct (toval_inj s t Hc Rt (proj1 He eq_refl)) as [E _]. rewrite <- Mt, E. tauto.
  - assert (Hne : toval s <> toval t) by (intros E; apply He in E; discriminate).
    destruct (make_prechoice_spec cf (Simple s) new) as (p & -> & P1 & P2 & P3); auto.
    { destruct (toval_neq_diff s t Hc Rt Hne) as (v & D). exists v. simpl lelts.
      rewrite <- (Mt v). exact D. }
    exists (Pre p). auto.
Qed.

(** ** Union *)
Lemma union_loop_spec cf v : cfg_ok cf -> Forall (fun x => lv_ok x /\ lv_big x) v ->
  forall cur, lv_ok cur -> lv_big cur ->
  exists r, union_loop cf cur v = Some r /\ lv_ok r /\ lv_big r /\
    (forall x, In x (lelts r) <-> In x (lelts cur) \/ exists a, In a v /\ In x (lelts a)).
Proof.
  intros Hcf. induction v as [|a v IH]; intros Hv cur Hc Bc; cbn [union_loop].
  - exists cur. split; auto. split; auto. split; auto. intros x. split; auto. intros [|(a & [] & _)]; auto.
  - inversion Hv as [|? ? [Ha Ba] Hv']; subst.
    destruct (add_to_choice_spec cf true cur a) as (r & -> & R1 & R2 & R3); auto.
    destruct (IH Hv' r R1 R2) as (r' & E & Q1 & Q2 & Q3). exists r'. split; auto. split; auto. split; auto.
    intros x. rewrite Q3, R3. split.
    + intros [[|]|(b & ? & ?)]; auto; right; [exists a|exists b]; simpl; auto.
    + intros [|(b & [->|] & ?)]; auto. right. eauto.
Qed.
Lemma union_spec cf v : cfg_ok cf -> Forall (fun x => lv_ok x /\ lv_big x) v ->
  exists s, kno_union cf v = Some s /\ represents s (fun x => exists a, In a v /\ In x (lelts a)).
Proof.
  intros Hcf Hv. destruct v as [|a v].
  - exists (SVal KEMPTY). split; auto. split; [now left|]. simpl. intros x. split; [tauto|]. intros (a & [] & _).
  - unfold kno_union.
    destruct (union_loop_spec cf (a :: v) Hcf Hv (Simple (SVal KEMPTY))) as (r & -> & R1 & R2 & R3);
      [now left|exact I|].
    destruct (simplify_spec cf r Hcf R1) as (s & -> & S1 & S2).
    exists s. split; auto. split; auto. intros x. rewrite S2, R3. simpl. tauto.
Qed.

(** ** Membership *)
Lemma kno_choice_containsp_spec cf key x : cfg_ok cf -> lv_ok x -> vp key -> key <> KEMPTY ->
  exists b, kno_choice_containsp cf key x = Some b /\ (b = true <-> In key (lelts x)).
Proof.
  intros Hcf Hx Hk Nk.
  assert (Hs : forall s P, simple_ok s -> (forall v, In v (selts s) <-> P v) ->
    forall b, (match s with SChoice _ l => choice_containsp key l | SVal v => Some (lequal key v) end) = Some b ->
     (b = true <-> P key)).
  { intros s P Hs HP b. rewrite <- HP. destruct s as [v|a l]; simpl.
    - intros E. injection E as <-. destruct Hs as [->|Hv].
      + rewrite leq_eq by (auto using vp_empty). simpl. tauto.
      + rewrite leq_eq by auto. rewrite elt_nonempty by auto. simpl. split; [intros ->; auto|intros [|[]]; auto].
    - destruct Hs as (F & S & _). destruct (containsp_spec l key) as (b' & -> & M); auto.
      intros E. injection E as <-. exact M. }
  destruct x as [[v|a l]|p]; cbn [kno_choice_containsp].
  - exists (lequal v key). split; auto. simpl. destruct Hx as [->|Hv].
    + rewrite leq_eq by (auto using vp_empty). simpl. split; [congruence|tauto].
    + rewrite leq_eq by auto. rewrite elt_nonempty by auto. simpl. tauto.
  - destruct Hx as (F & S & _). apply containsp_spec; auto.
  - destruct (simplify_spec cf (Pre p) Hcf Hx) as (s & -> & S1 & S2).
    assert (Hex : exists b, match s with SChoice _ l => choice_containsp key l | SVal v => Some (lequal key v) end = Some b).
    { destruct s as [v|a l]; [eauto|]. destruct S1 as (F & S & _).
      destruct (containsp_spec l key) as (b' & -> & M); eauto. }
    destruct Hex as (b & E).
    replace (match s with SVal v => Some (lequal key v) | SChoice _ l => choice_containsp key l end) with
      (match s with SChoice _ l => choice_containsp key l | SVal v => Some (lequal key v) end) by (destruct s; reflexivity).
    exists b. split; auto. apply (Hs s (fun v => In v (lelts (Pre p)))); auto.
Qed.

(** ** Intersection *)
Lemma in_all_spec x l : vp x -> Forall (fun c => Forall vp c /\ ssorted c) l ->
  exists b, in_all x l = Some b /\ (b = true <-> forall c, In c l -> In x c).
Proof.
  intros Hx. induction 1 as [|c l [V S] _ IH]; cbn [in_all].
  - exists true. split; auto. split; auto. intros _ c [].
  - destruct (containsp_spec c x) as (b & -> & M); auto. destruct b.
    + destruct IH as (b & -> & M'). exists b. split; auto. rewrite M'. split.
      * intros H d [<-|]; auto. tauto.
      * intros H d Hd. apply H. now right.
    + exists false. split; auto. split; [discriminate|]. intros H. apply M. apply H. now left.
Qed.
Lemma filter_in_spec l others : Forall vp l -> Forall (fun c => Forall vp c /\ ssorted c) others -> ssorted l ->
  exists r, filter_in l others = Some r /\ ssorted r /\
    (forall x, In x r <-> In x l /\ forall c, In c others -> In x c).
Proof.
  intros Hl Ho. induction l as [|a l IH]; intros S; cbn [filter_in].
  - exists []. split; auto. split; [constructor|]. simpl. tauto.
  - inversion Hl; inversion S; subst. destruct (in_all_spec a others) as (b & -> & M); auto.
    destruct IH as (r & -> & R1 & R2); auto. eexists. split; [reflexivity|]. destruct b.
    + split.
      * constructor; auto. rewrite Forall_forall in *. intros y Hy. apply R2 in Hy. apply H6. tauto.
      * intros x. simpl. rewrite R2. split.
        -- intros [<-|[? ?]]; auto. split; auto. now apply M.
        -- intros [[<-|] ?]; auto.
    + split; auto. intros x. rewrite R2. simpl. split; [tauto|].
      intros [[<-|] HH]; [|auto]. apply M in HH. discriminate.
Qed.
Lemma insert_by_size_in c l x : In x (insert_by_size c l) <-> x = c \/ In x l.
Proof.
  induction l as [|d l IH]; simpl; [intuition|]. destruct (length c <=? length d); simpl; rewrite ?IH; intuition.
Qed.
Lemma sort_by_size_in l x : In x (sort_by_size l) <-> In x l.
Proof. induction l as [|c l IH]; simpl; [tauto|]. rewrite insert_by_size_in, IH. intuition. Qed.

Lemma intersect_choices_spec cf l : cfg_ok cf -> l <> [] ->
  Forall (fun c => Forall elt_ok c /\ ssorted c) l ->
  exists s, intersect_choices cf l = Some s /\ represents s (fun x => forall c, In c l -> In x c).
Proof.
  intros Hcf Hne H. unfold intersect_choices.
  destruct (sort_by_size l) as [|c others] eqn:E.
  { exfalso. destruct l as [|c l]; [congruence|].
    assert (Hc : In c (sort_by_size (c :: l))) by (apply sort_by_size_in; now left).
    rewrite E in Hc. auto. }
  assert (Hin : forall d, In d l <-> d = c \/ In d others).
  { intros d. rewrite <- (sort_by_size_in l d), E. simpl. intuition. }
  assert (Hall : forall d, d = c \/ In d others -> Forall elt_ok d /\ ssorted d).
  { intros d Hd. apply Hin in Hd. eapply Forall_in in H; eauto. }
  destruct (Hall c) as [Fc Sc]; auto.
  destruct (filter_in_spec c others) as (r & -> & R1 & R2); auto.
  { apply Forall_forall. intros d Hd. destruct (Hall d); auto. }
  assert (Hr : Forall elt_ok r).
  { apply Forall_forall. intros x Hx. apply R2 in Hx. destruct Hx. eapply Forall_in; eauto. }
  assert (Hm : forall x, In x r <-> forall d, In d l -> In x d).
  { intros x. rewrite R2. split.
    - intros [Hx Ho] d Hd. apply Hin in Hd. destruct Hd as [->|]; auto.
    - intros Hx. split; [apply Hx, Hin; auto|]. intros d Hd. apply Hx, Hin. auto. }
  destruct r as [|x [|y r]].
  - exists (SVal KEMPTY). split; auto. split; [now left|]. simpl. exact Hm.
  - inversion Hr; subst. exists (SVal x). split; auto. split; [now right|]. rewrite selts_elt by auto. exact Hm.
  - destruct (init_choice_spec cf (x :: y :: r) {| f_sort := false; f_compress := false; f_realloc := false;
                               f_atomic := forallb atomicp (x :: y :: r); f_conses := false |})
      as (s & E1 & [S1 S2] & _); auto.
    + cbn [f_atomic]. apply Forall_forall. intros z Hz E1. rewrite forallb_forall in E1. auto.
    + right. apply ssorted_two; auto. simpl; lia.
    + exists s. split; auto. split; auto. intros z. rewrite S2. apply Hm.
Qed.

(** The conversion loop when every accumulator has at least two elements. *)
Lemma isect_convert_spec cf v : cfg_ok cf -> Forall (fun x => lv_ok x /\ lv_big x) v ->
  (forall x, In x v -> forall w, x <> Simple (SVal w)) ->
  forall acc, exists cs, isect_convert cf v acc None false = Some (acc ++ cs, None) /\
    length cs = length v /\
    Forall (fun c => Forall elt_ok c /\ ssorted c) cs /\
    (forall z, (forall c, In c cs -> In z c) <-> (forall a, In a v -> In z (lelts a))).
Proof.
  intros Hcf Hv Hns. induction v as [|x v IH]; intros acc; cbn [isect_convert].
  - exists []. rewrite app_nil_r. repeat split; auto; intros; simpl in *; tauto.
  - inversion Hv as [|? ? [Hx Bx] Hv']; subst.
    assert (Hns' : forall x, In x v -> forall w, x <> Simple (SVal w)) by (intros; apply Hns; now right).
    assert (Hc : forall l, Forall elt_ok l -> ssorted l -> (forall z, In z l <-> In z (lelts x)) ->
      exists cs, isect_convert cf v (acc ++ [l]) None false = Some (acc ++ cs, None) /\
       length cs = S (length v) /\ Forall (fun c => Forall elt_ok c /\ ssorted c) cs /\
       (forall z, (forall c, In c cs -> In z c) <-> (forall a, In a (x :: v) -> In z (lelts a)))).
    { intros l Fl Sl Ml. destruct (IH Hv' Hns' (acc ++ [l])) as (cs & -> & L & F & M).
      exists (l :: cs). rewrite <- app_assoc. split; auto. split; [simpl; auto|]. split; [constructor; auto|].
      intros z. split.
      - intros H a [<-|Ha]; [apply Ml, H; now left|]. apply (proj1 (M z)); [|auto]. intros c Hc. apply H. now right.
      - intros H c [<-|Hc]; [apply Ml, H; now left|]. apply (proj2 (M z)); [|auto]. intros a Ha. apply H. now right. }
    destruct x as [[w|a l]|p].
    + exfalso. apply (Hns (Simple (SVal w)) (or_introl eq_refl) w). reflexivity.
    + apply Hc; try apply Hx. tauto.
    + destruct (simplify_spec cf (Pre p) Hcf Hx) as (s & -> & S1 & S2).
      assert (Hch : choicep s = true) by (eapply represents_two; [split; eauto|exact Bx]).
      destruct s as [|a l]; [discriminate|]. apply Hc; try apply S1. exact S2.
Qed.

Lemma isect_scan_spec v : Forall (fun x => lv_ok x /\ lv_big x) v ->
  forall res pc, (forall r, res = Some r -> elt_ok r) ->
  match isect_scan v res pc with
  | None => forall z, (forall r, res = Some r -> z = r) -> ~ (forall a, In a v -> In z (lelts a))
  | Some (Some r, _) =>
      elt_ok r /\ (forall r', res = Some r' -> r' = r) /\
      (forall w, In (Simple (SVal w)) v -> w = r) /\
      (res = None -> In (Simple (SVal r)) v)
  | Some (None, b) =>
      res = None /\ (forall w, ~ In (Simple (SVal w)) v) /\
      (b = false -> pc = false /\ forall p, ~ In (Pre p) v)
  end.
Proof.
  induction v as [|x v IH]; intros Hv res pc Hres; cbn [isect_scan].
  - destruct res as [r|]; simpl; auto.
    split; auto. split; [intros r' E; congruence|]. split; [tauto|congruence].
  - inversion Hv as [|? ? [Hx Bx] Hv']; subst. destruct x as [[w|a l]|p].
    + destruct Hx as [->|Hw].
      * simpl. intros z _ H. apply (H (Simple (SVal KEMPTY)) (or_introl eq_refl)).
      * rewrite elt_nonempty by auto. destruct res as [r|].
        -- pose proof (Hres r eq_refl) as Hr. pose proof (leq_eq r w (elt_vp _ Hr) (elt_vp _ Hw)) as E.
           destruct (lequal r w).
           ++ assert (r = w) by now apply E. subst w. specialize (IH Hv' (Some r) pc Hres).
              destruct (isect_scan v (Some r) pc) as [[[r'|] b]|].
              ** destruct IH as (I1 & I2 & I3 & I4). split; [auto|]; split; [try congruence; auto|]; split; [|try congruence; auto].
                 intros w [Ew|]; auto. injection Ew as <-. now apply I2.
              ** destruct IH as (I1 & _). discriminate.
              ** intros z Hz H. apply (IH z Hz). intros a Ha. apply H. now right.
           ++ intros z Hz H. specialize (Hz r eq_refl). subst z.
              assert (Hin : In r (lelts (Simple (SVal w)))) by (apply H; now left).
              cbn [lelts] in Hin. rewrite selts_elt in Hin by auto. destruct Hin as [->|[]].
              assert (false = true) by now apply E. discriminate.
        -- specialize (IH Hv' (Some w) pc). destruct (isect_scan v (Some w) pc) as [[[r'|] b]|].
           ++ destruct IH as (I1 & I2 & I3 & I4); [intros r E; injection E as <-; auto|].
              assert (w = r') by now apply I2. subst. split; [auto|]; split; [try congruence; auto|]; split; [|try congruence; auto].
              ** intros w [Ew|]; auto. congruence.
              ** intros _. now left.
           ++ destruct IH as (I1 & _); [intros r E; injection E as <-; auto|]. discriminate.
           ++ intros z _ H.
              assert (Hin : In z (lelts (Simple (SVal w)))) by (apply H; now left).
              cbn [lelts] in Hin. rewrite selts_elt in Hin by auto. destruct Hin as [<-|[]].
              apply (IH ltac:(intros r E; injection E as <-; auto) w); [congruence|].
              intros a Ha. apply H. now right.
    + specialize (IH Hv' res pc Hres). destruct (isect_scan v res pc) as [[[r'|] b]|].
      * destruct IH as (I1 & I2 & I3 & I4). split; [auto|]; split; [auto|]; split.
        -- intros w [|]; [discriminate|auto]. -- intros E. right. auto.
      * destruct IH as (I1 & I2 & I3). split; [auto|]; split; [|intros H; split].
        -- intros w [|]; [discriminate|]. now apply (I2 w). -- now apply I3.
        -- intros p [|Hp]; [discriminate|]. destruct (I3 H) as [_ I4]. now apply (I4 p).
      * intros z Hz H. apply (IH z Hz). intros c Hc. apply H. now right.
    + specialize (IH Hv' res true Hres). destruct (isect_scan v res true) as [[[r'|] b]|].
      * destruct IH as (I1 & I2 & I3 & I4). split; [auto|]; split; [auto|]; split.
        -- intros w [|]; [discriminate|auto]. -- intros E. right. auto.
      * destruct IH as (I1 & I2 & I3). split; [auto|]; split; [|intros H; split].
        -- intros w [|]; [discriminate|]. now apply (I2 w).
        -- destruct (I3 H). discriminate.
        -- destruct (I3 H). discriminate.
      * intros z Hz H. apply (IH z Hz). intros c Hc. apply H. now right.
Qed.

Lemma isect_single_spec cf r v : cfg_ok cf -> elt_ok r -> Forall lv_ok v ->
  (forall w, In (Simple (SVal w)) v -> w = r) ->
  exists b, isect_single cf r v = Some b /\ (b = true <-> forall a, In a v -> In r (lelts a)).
Proof.
  intros Hcf Hr. induction v as [|x v IH]; intros Hv Hs; cbn [isect_single].
  - exists true. split; auto. split; auto. intros _ a [].
  - inversion Hv as [|? ? Hx Hv']; subst.
    assert (Hs' : forall w, In (Simple (SVal w)) v -> w = r) by (intros; apply Hs; now right).
    destruct (IH Hv' Hs') as (b & E & M).
    assert (Hstep : forall c, (c = true <-> In r (lelts x)) ->
      exists b, (if c then isect_single cf r v else Some false) = Some b /\
        (b = true <-> forall a, In a (x :: v) -> In r (lelts a))).
    { intros c Hc. destruct c.
      - exists b. split; auto. rewrite M. split.
        + intros H a [<-|]; auto. now apply Hc.
        + intros H a Ha. apply H. now right.
      - exists false. split; auto. split; [discriminate|]. intros H. apply Hc. apply H. now left. }
    destruct x as [[w|a l]|p].
    + assert (w = r) by (apply Hs; now left). subst w.
      apply (Hstep true). cbn [lelts]. rewrite selts_elt by auto. simpl. tauto.
    + destruct Hx as (F & S & _). destruct (containsp_spec l r) as (c & -> & Mc); auto.
    + destruct (simplify_spec cf (Pre p) Hcf Hx) as (s & -> & S1 & S2).
      destruct (kno_choice_containsp_spec cf r (Simple s)) as (c & -> & Mc); auto; [apply Hr|].
      apply Hstep. rewrite Mc. apply S2.
Qed.

Lemma lv_choice_flat v : Forall (fun x => lv_ok x /\ lv_big x) v ->
  (forall w, ~ In (Simple (SVal w)) v) -> (forall p, ~ In (Pre p) v) ->
  length (flat_map lv_choice v) = length v /\
  Forall (fun c => Forall elt_ok c /\ ssorted c) (flat_map lv_choice v) /\
  forall z, (forall c, In c (flat_map lv_choice v) -> In z c) <-> (forall a, In a v -> In z (lelts a)).
Proof.
  induction v as [|x v IH]; intros Hv H1 H2.
  - simpl. repeat split; auto; intros; tauto.
  - inversion Hv as [|? ? [Hx _] Hv']; subst.
    destruct IH as (L & F & M); auto.
    { intros w Hw. apply (H1 w). now right. } { intros w Hw. apply (H2 w). now right. }
    destruct x as [[w|a l]|p]; [exfalso; apply (H1 w); now left| |exfalso; apply (H2 p); now left].
    simpl. split; [now rewrite L|]. split; [constructor; auto; destruct Hx as (? & ? & _); auto|].
    intros z. split.
    + intros H c [<-|Hc]; [apply H; now left|]. apply (proj1 (M z)); [|auto]. intros d Hd. apply H. now right.
    + intros H c [<-|Hc]; [apply (H (Simple (SChoice a l))); now left|].
      apply (proj2 (M z)); [|auto]. intros b Hb. apply H. now right.
Qed.

Lemma intersection_spec cf v : cfg_ok cf -> v <> [] -> Forall (fun x => lv_ok x /\ lv_big x) v ->
  exists r, kno_intersection cf v = Some r /\ lv_ok r /\ lv_big r /\
    (forall x, In x (lelts r) <-> forall a, In a v -> In x (lelts a)).
Proof.
  intros Hcf Hne Hv.
  destruct v as [|x1 [|x2 v]]; [congruence| |].
  { inversion Hv as [|? ? [Hx Bx] _]; subst. exists x1. split; auto. split; auto. split; auto. intros x.
    split; [intros H a [<-|[]]; auto|]. intros H. apply H. now left. }
  unfold kno_intersection. set (w := x1 :: x2 :: v) in *.
  assert (Hlv : Forall lv_ok w) by (eapply Forall_impl; [|exact Hv]; now intros x []).
  pose proof (isect_scan_spec w Hv None false) as Hscan.
  destruct (isect_scan w None false) as [[[r|] b]|].
  - destruct Hscan as (Hr & _ & Hs & Hin); [discriminate|]. specialize (Hin eq_refl).
    destruct (isect_single_spec cf r w Hcf Hr Hlv Hs) as (c & -> & Mc).
    eexists. split; [reflexivity|]. destruct c.
    + split; [right; auto|]. split; [exact I|]. intros x. cbn [lelts]. rewrite selts_elt by auto. split.
      * intros [<-|[]]. now apply Mc.
      * intros H. specialize (H _ Hin). cbn [lelts] in H. rewrite selts_elt in H by auto. exact H.
    + split; [now left|]. split; [exact I|]. intros x. simpl. split; [tauto|]. intros H.
      assert (x = r). { specialize (H _ Hin). cbn [lelts] in H. rewrite selts_elt in H by auto.
        destruct H as [|[]]; auto. }
      subst. apply Mc in H. discriminate.
  - destruct Hscan as (_ & Hns & Hb); [discriminate|]. destruct b.
    + destruct (isect_convert_spec cf w Hcf Hv) with (acc := @nil (list val)) as (cs & -> & L & F & M).
      { intros x Hx u ->. now apply (Hns u). }
      simpl app. destruct (intersect_choices_spec cf cs) as (s & -> & S1 & S2); auto.
      { intros ->. simpl in L. lia. }
      exists (Simple s). split; auto. split; auto. split; [exact I|]. intros x. simpl lelts. rewrite S2. apply M.
    + destruct (Hb eq_refl) as [_ Hnp].
      destruct (lv_choice_flat w Hv Hns Hnp) as (L & F & M).
      destruct (intersect_choices_spec cf (flat_map lv_choice w)) as (s & -> & S1 & S2); auto.
      { intros E. rewrite E in L. simpl in L. lia. }
      exists (Simple s). split; auto. split; auto. split; [exact I|]. intros x. simpl lelts. rewrite S2. apply M.
  - exists (Simple (SVal KEMPTY)). split; auto. split; [now left|]. split; [exact I|]. intros x. simpl. split; [tauto|].
    intros H. apply (Hscan ltac:(discriminate) x); [discriminate|auto].
Qed.

(** ** Difference *)
Lemma gallop_spec part x : Forall vp part -> ssorted part -> vp x ->
  (forall y, In y part -> atomicp y = true) -> atomicp x = true ->
  forall fuel bottom top, (0 <= bottom)%Z -> (top < Z.of_nat (length part))%Z ->
  (bottom <= top + 1)%Z -> (top - bottom <= Z.of_nat fuel)%Z ->
  (forall k y, (Z.of_nat k < bottom)%Z -> nth_error part k = Some y -> lt y x) ->
  exists m, gallop fuel x part bottom top = Some m /\
    (forall k y, (Z.of_nat k < m)%Z -> nth_error part k = Some y -> lt y x).
Proof.
  intros V S Vx Ap Ax. induction fuel as [|f IH]; intros bottom top Hb Ht Hbt Hf Hlo; cbn [gallop].
  - destruct (Z.ltb_spec bottom top); [lia|].
    eexists. split; [reflexivity|]. intros k y Hk. apply Hlo.
    destruct (Z.ltb_spec top bottom); [lia|]. replace (top - bottom)%Z with 0%Z in Hk by lia.
    rewrite Z.quot_0_l in Hk; lia.
  - destruct (Z.ltb_spec bottom top).
    + destruct (Z.ltb_spec top bottom); [lia|].
      set (m := (bottom + Z.quot (top - bottom) 2)%Z).
      assert (Hm : (bottom <= m < top)%Z).
      { unfold m. rewrite Z.quot_div_nonneg by lia.
        assert (0 <= (top - bottom) / 2)%Z by (apply Z.div_pos; lia).
        assert ((top - bottom) / 2 < top - bottom)%Z by (apply Z.div_lt; lia). lia. }
      rewrite zget_nth by lia.
      destruct (nth_error part (Z.to_nat m)) as [y|] eqn:Ey.
      2:{ apply nth_error_None in Ey. lia. }
      assert (Hin : In y part) by (eapply nth_error_In; eauto).
      rewrite wcmp_eq by auto.
      assert (Hlow : cle y x -> forall k z, (Z.of_nat k < m)%Z -> nth_error part k = Some z -> lt z x).
      { intros Hc k z Hk Hz.
        assert (lt z y) by (eapply (ssorted_nth part S k (Z.to_nat m)); eauto; lia).
        assert (In z part) by (eapply nth_error_In; eauto). rewrite Forall_forall in V.
        apply (lt_cle_trans z y x); auto. }
      destruct (cons_compare x y) eqn:Ec.
      * exists m. split; auto. apply Hlow. unfold cle.
        rewrite (cmp_opp x y) by (auto; rewrite Forall_forall in V; auto). rewrite Ec. discriminate.
      * apply IH; auto; lia.
      * apply IH; auto; try lia. intros k z Hk Hz.
        assert (Hyx : lt y x).
        { unfold lt. rewrite (cmp_opp x y) by (auto; rewrite Forall_forall in V; auto). now rewrite Ec. }
        destruct (Z.eq_dec (Z.of_nat k) m) as [E|].
        -- assert (k = Z.to_nat m) by lia. subst k. assert (z = y) by congruence. now subst.
        -- apply (Hlow ltac:(unfold cle, lt in *; congruence) k z); auto. lia.
    + eexists. split; [reflexivity|]. intros k y Hk. apply Hlo.
      destruct (Z.ltb_spec top bottom); [lia|]. replace (top - bottom)%Z with 0%Z in Hk by lia.
      rewrite Z.quot_0_l in Hk; lia.
Qed.

Lemma skipn_nth {A} n (l : list A) x : In x l -> In x (skipn n l) \/ exists k, k < n /\ nth_error l k = Some x.
Proof.
  revert l. induction n as [|n IH]; intros l Hx; [auto|].
  destruct l as [|a l]; [destruct Hx|]. simpl. destruct Hx as [<-|Hx].
  - right. exists 0. split; [lia|reflexivity].
  - destruct (IH l Hx) as [|(k & ? & ?)]; auto. right. exists (S k). split; [lia|auto].
Qed.
Lemma skipn_in {A} n (l : list A) x : In x (skipn n l) -> In x l.
Proof. revert l. induction n as [|n IH]; intros l H; auto. destruct l; auto. simpl in H. right. auto. Qed.
Lemma ssorted_skipn n l : ssorted l -> ssorted (skipn n l).
Proof. revert l. induction n as [|n IH]; intros l H; auto. destruct l; auto. simpl. apply IH. now inversion H. Qed.
Lemma Forall_skipn {A} (P : A -> Prop) n l : Forall P l -> Forall P (skipn n l).
Proof. rewrite !Forall_forall. intros H x Hx. apply H. eapply skipn_in; eauto. Qed.

Definition diff_of (whole part r : list val) : Prop :=
  ssorted r /\ forall x, In x r <-> In x whole /\ ~ In x part.

(** Steps shared by the two loops. *)
Lemma below_not_in x l : vp x -> Forall vp l -> Forall (lt x) l -> ~ In x l.
Proof. intros Hx V F H. apply (lt_irrefl x Hx). now apply (Forall_in (lt x) l). Qed.
Lemma diff_eq w whole part r : vp w -> Forall vp whole -> Forall vp part ->
  ssorted (w :: whole) -> ssorted (w :: part) ->
  diff_of whole part r -> diff_of (w :: whole) (w :: part) r.
Proof.
  intros Vw V1 V2 S1 S2 [S M]. split; auto. intros x. rewrite M. inversion S1; inversion S2; subst. simpl. split.
  - intros [Hx Hn]. split; auto. intros [<-|]; auto. now apply (below_not_in w whole).
  - intros [[<-|Hx] Hn]; [tauto|]. split; auto.
Qed.
Lemma diff_lt w whole p part r : vp w -> vp p -> Forall vp whole -> Forall vp part ->
  ssorted (w :: whole) -> ssorted (p :: part) -> lt w p ->
  diff_of whole (p :: part) r -> diff_of (w :: whole) (p :: part) (w :: r).
Proof.
  intros Vw Vp V1 V2 S1 S2 Hlt [S M]. inversion S1; inversion S2; subst. split.
  - constructor; auto. apply Forall_forall. intros y Hy. apply M in Hy.
    apply (Forall_in (lt w) whole); tauto.
  - intros x. cbn [In]. rewrite M. cbn [In]. split.
    + intros [<-|[Hx Hn]]; [|tauto]. split; auto. intros [E|Hin].
      * subst. now apply (lt_irrefl w).
      * apply (below_not_in w part); auto. apply Forall_forall. intros z Hz.
        apply (lt_trans w p z); auto; [rewrite Forall_forall in V2; auto|]. now apply (Forall_in (lt p) part).
    + intros [[<-|Hx] Hn]; auto.
Qed.
(** Elements of the part below the head of the whole can be dropped. *)
Lemma diff_drop w whole part part' r : vp w -> Forall vp whole -> ssorted (w :: whole) ->
  Forall vp part -> (forall x, In x part' -> In x part) ->
  (forall x, In x part -> In x part' \/ lt x w) ->
  diff_of (w :: whole) part' r -> diff_of (w :: whole) part r.
Proof.
  intros Vw V1 S1 V2 H1 H2 [S M]. inversion S1; subst. split; auto. intros x. rewrite M. split.
  - intros [Hx Hn]. split; auto. intros Hp. destruct (H2 x Hp) as [|Hlt]; auto.
    assert (vp x) by (rewrite Forall_forall in V2; auto).
    destruct Hx as [<-|Hx]; [now apply (lt_irrefl w)|].
    apply (lt_irrefl x); auto. apply (lt_trans x w x); auto. now apply (Forall_in (lt w) whole).
  - intros [Hx Hn]. split; auto.
Qed.

Lemma adiff_spec : forall fuel whole part, length whole + length part < fuel ->
  Forall vp whole -> Forall vp part ->
  (forall y, In y whole -> atomicp y = true) -> (forall y, In y part -> atomicp y = true) ->
  ssorted whole -> ssorted part ->
  exists r, adiff fuel whole part = Some r /\ diff_of whole part r.
Proof.
  induction fuel as [|f IH]; intros whole part Hf V1 V2 A1 A2 S1 S2; [lia|].
  destruct whole as [|w whole]; cbn [adiff].
  { exists []. split; auto. split; [constructor|]. simpl. tauto. }
  destruct part as [|p part].
  { exists (w :: whole). split; auto. split; auto. simpl. tauto. }
  assert (Vw : vp w) by now inversion V1. assert (Vp : vp p) by now inversion V2.
  assert (V1' : Forall vp whole) by now inversion V1. assert (V2' : Forall vp part) by now inversion V2.
  assert (S1' : ssorted whole) by now inversion S1. assert (S2' : ssorted part) by now inversion S2.
  assert (A1' : forall y, In y whole -> atomicp y = true) by (intros; apply A1; now right).
  assert (A2' : forall y, In y part -> atomicp y = true) by (intros; apply A2; now right).
  rewrite (wcmp_eq w p); [|apply A1; now left|apply A2; now left].
  destruct (cons_compare w p) eqn:Ec.
  - assert (w = p) by now apply cmp_eq. subst p.
    destruct (IH whole part) as (r & -> & D); auto; [simpl in Hf; lia|].
    exists r. split; auto. now apply diff_eq.
  - destruct (IH whole (p :: part)) as (r & -> & D); auto; [simpl in *; lia|].
    exists (w :: r). split; auto. now apply diff_lt.
  - assert (Hpw : lt p w). { unfold lt. rewrite (cmp_opp w p) by auto. now rewrite Ec. }
    destruct part as [|p' part'].
    { exists (w :: whole). split; auto.
      apply (diff_drop w whole [p] []); auto; simpl; [tauto|intros x [<-|[]]; auto|].
      split; auto. simpl. tauto. }
    assert (Hgo : forall pp, length pp <= length (p' :: part') -> Forall vp pp -> ssorted pp ->
        (forall x, In x pp -> In x (p' :: part')) ->
        (forall x, In x (p' :: part') -> In x pp \/ lt x w) ->
        exists r, adiff f (w :: whole) pp = Some r /\ diff_of (w :: whole) (p :: p' :: part') r).
    { intros pp L Vpp Spp I1 I2. destruct (IH (w :: whole) pp) as (r & E & D); auto; [simpl in *; lia|].
      exists r. split; auto. apply (diff_drop w whole _ pp); auto.
      - intros x Hx. right. auto.
      - intros x [<-|Hx]; auto. }
    rewrite (wcmp_eq w p'); [|apply A1; now left|apply A2'; now left].
    destruct (cons_compare w p') eqn:Ec'.
    + apply Hgo; auto.
    + apply Hgo; auto.
    + destruct (gallop_spec (p' :: part') w V2' S2' Vw A2' (A1 w (or_introl eq_refl))
         (S (length (p' :: part'))) 0 (Z.of_nat (length (p' :: part')) - 1)) as (m & -> & Hm); try lia.
      destruct (Z.ltb_spec 0 m).
      * apply Hgo.
        -- rewrite skipn_length. lia.
        -- now apply Forall_skipn.
        -- now apply ssorted_skipn.
        -- intros x. apply skipn_in.
        -- intros x Hx. destruct (skipn_nth (Z.to_nat m) _ x Hx) as [|(k & Hk & Hk')]; auto.
           right. apply (Hm k x); auto. lia.
      * apply Hgo; auto.
Qed.

Lemma cdiff_spec : forall fuel whole part, length whole + length part < fuel ->
  Forall vp whole -> Forall vp part -> ssorted whole -> ssorted part ->
  exists r, cdiff fuel whole part = Some r /\ diff_of whole part r.
Proof.
  induction fuel as [|f IH]; intros whole part Hf V1 V2 S1 S2; [lia|].
  destruct whole as [|w whole]; cbn [cdiff].
  { exists []. split; auto. split; [constructor|]. simpl. tauto. }
  destruct part as [|p part].
  { exists (w :: whole). split; auto. split; auto. simpl. tauto. }
  assert (Vw : vp w) by now inversion V1. assert (Vp : vp p) by now inversion V2.
  assert (V1' : Forall vp whole) by now inversion V1. assert (V2' : Forall vp part) by now inversion V2.
  assert (S1' : ssorted whole) by now inversion S1. assert (S2' : ssorted part) by now inversion S2.
  destruct (lequal w p) eqn:El.
  - assert (w = p) by now apply leq_eq. subst p.
    destruct (IH whole part) as (r & -> & D); auto; [simpl in Hf; lia|].
    exists r. split; auto. now apply diff_eq.
  - assert (Hne : w <> p). { intros E. apply leq_eq in E; auto. congruence. }
    assert (Hdrop : lt p w -> exists r, cdiff f (w :: whole) part = Some r /\ diff_of (w :: whole) (p :: part) r).
    { intros Hpw. destruct (IH (w :: whole) part) as (r & -> & D); auto; [simpl in *; lia|].
      exists r. split; auto. apply (diff_drop w whole _ part); auto.
      - intros x Hx. now right. - intros x [<-|Hx]; auto. }
    destruct (cons_compare w p) eqn:Ec.
    + exfalso. apply Hne. now apply cmp_eq.
    + destruct (IH whole (p :: part)) as (r & -> & D); auto; [simpl in *; lia|].
      exists (w :: r). split; auto. now apply diff_lt.
    + apply Hdrop. unfold lt. rewrite (cmp_opp w p) by auto. now rewrite Ec.
Qed.

Lemma choice_difference_spec cf wa whole pa part : cfg_ok cf ->
  simple_ok (SChoice wa whole) -> simple_ok (SChoice pa part) ->
  exists s, choice_difference cf wa whole pa part = Some s /\
    represents s (fun x => In x whole /\ ~ In x part).
Proof.
  intros Hcf (F1 & S1 & L1 & A1) (F2 & S2 & L2 & A2). unfold choice_difference. cbn zeta.
  assert (Hr : exists r, (if wa && pa then adiff (S (length whole + length part)) whole part
                          else cdiff (S (length whole + length part)) whole part) = Some r /\ diff_of whole part r).
  { destruct (wa && pa) eqn:E.
    - apply andb_true_iff in E. destruct E; subst. apply adiff_spec; auto.
      + intros y Hy. eapply Forall_in in A1; eauto. + intros y Hy. eapply Forall_in in A2; eauto.
    - apply cdiff_spec; auto. }
  destruct Hr as (r & -> & S & M).
  assert (Hr : Forall elt_ok r).
  { apply Forall_forall. intros x Hx. apply M in Hx. apply (Forall_in elt_ok whole); tauto. }
  destruct r as [|x [|y r]].
  - exists (SVal KEMPTY). split; auto. split; [now left|]. exact M.
  - inversion Hr; subst. exists (SVal x). split; auto. split; [now right|]. rewrite selts_elt by auto. exact M.
  - destruct (init_choice_spec cf (x :: y :: r) {| f_sort := false; f_compress := false; f_realloc := false;
                             f_atomic := wa; f_conses := false |}) as (s & E1 & [R1 R2] & _); auto.
    + cbn [f_atomic]. apply Forall_forall. intros z Hz. apply M in Hz. destruct Hz. eapply Forall_in; eauto.
    + right. apply ssorted_two; auto. simpl; lia.
    + exists s. split; auto. split; auto. intros z. rewrite R2. apply M.
Qed.

Lemma filter_remove r l : vp r -> Forall vp l -> ssorted l ->
  ssorted (filter (fun x => negb (lequal x r)) l) /\
  (forall x, In x (filter (fun x => negb (lequal x r)) l) <-> In x l /\ x <> r) /\
  (In r l -> length (filter (fun x => negb (lequal x r)) l) = length l - 1) /\
  (~ In r l -> length (filter (fun x => negb (lequal x r)) l) = length l).
Proof.
  intros Vr V S.
  assert (M : forall x, In x (filter (fun x => negb (lequal x r)) l) <-> In x l /\ x <> r).
  { intros x. rewrite filter_In. split; intros [Hx H]; split; auto.
    - intros ->. apply negb_true_iff in H. assert (lequal r r = true) by now apply leq_eq. congruence.
    - apply negb_true_iff. destruct (lequal x r) eqn:E; auto. exfalso. apply H. apply leq_eq; auto.
      rewrite Forall_forall in V. auto. }
  split; [|split; auto].
  - clear M. induction S as [|a l S IH F]; simpl; [constructor|]. inversion V; subst.
    destruct (negb (lequal a r)); auto. constructor; [now apply IH|].
    rewrite Forall_forall in *. intros x Hx. apply filter_In in Hx. apply F. tauto.
  - clear M. induction S as [|a l S IH F]; simpl; [split; auto; tauto|]. inversion V as [|? ? Va V']; subst.
    specialize (IH V'). destruct IH as [I1 I2].
    pose proof (leq_eq a r Va Vr) as El. destruct (lequal a r); simpl.
    + assert (a = r) by now apply El. subst. split.
      * intros _. rewrite I2; [lia|]. now apply below_not_in.
      * intros H. exfalso. apply H. now left.
    + assert (Hne : a <> r) by (intros E; apply El in E; discriminate). split.
      * intros [|H]; [congruence|]. rewrite I1; auto. destruct l; [destruct H|simpl; lia].
      * intros H. rewrite I2; auto.
Qed.

Lemma simple_difference_spec cf value remove : cfg_ok cf -> simple_ok value -> simple_ok remove ->
  exists s, simple_difference cf value remove = Some s /\
    represents s (fun x => In x (selts value) /\ ~ In x (selts remove)).
Proof.
  intros Hcf Hv Hr. unfold simple_difference.
  destruct (is_empty value) eqn:Ev.
  { exists value. split; auto. split; auto. apply is_empty_selts in Ev; auto. rewrite Ev. simpl. tauto. }
  destruct (is_empty remove) eqn:Er.
  { exists value. split; auto. split; auto. apply is_empty_selts in Er; auto. rewrite Er. simpl. tauto. }
  destruct value as [v|a l], remove as [r|b m].
  - assert (Ov : elt_ok v) by (now apply entry_sval). assert (Or : elt_ok r) by (now apply entry_sval).
    eexists. split; [reflexivity|]. rewrite !selts_elt by auto.
    pose proof (leq_eq v r (elt_vp _ Ov) (elt_vp _ Or)) as E. destruct (lequal v r).
    + assert (v = r) by now apply E. subst. split; [now left|]. simpl. tauto.
    + split; auto. rewrite selts_elt by auto. simpl. intros x. split; [|tauto]. intros [<-|[]]. split; auto.
      intros [E1|[]]. symmetry in E1. apply E in E1. discriminate.
  - assert (Ov : elt_ok v) by (now apply entry_sval). destruct Hr as (F & S & _).
    destruct (containsp_spec m v) as (c & -> & M); auto. eexists. split; [reflexivity|].
    rewrite selts_elt by auto. simpl selts. destruct c.
    + split; [now left|]. simpl. intros x. split; [tauto|]. intros [[<-|[]] H]. apply H. now apply M.
    + split; auto. rewrite selts_elt by auto. simpl. intros x. split; [|tauto].
      intros [<-|[]]. split; auto. intros H. apply M in H. discriminate.
  - assert (Or : elt_ok r) by (now apply entry_sval). pose proof Hv as (F & S & L & A).
    destruct (containsp_spec l r) as (c & -> & M); auto. rewrite selts_elt by auto. simpl selts.
    destruct c.
    + assert (Hin : In r l) by now apply M.
      destruct l as [|x [|y [|z l']]]; simpl in L; try lia.
      * inversion F as [|? ? Ox F']; subst. inversion F' as [|? ? Oy _]; subst.
        assert (Hxy : x <> y).
        { intros ->. inversion S as [|? ? _ G]; subst. inversion G; subst. now apply (lt_irrefl y); auto. }
        eexists. split; [reflexivity|]. pose proof (leq_eq r x (elt_vp _ Or) (elt_vp _ Ox)) as E.
        destruct (lequal r x).
        -- assert (r = x) by now apply E. subst. split; [now right|]. rewrite selts_elt by auto. simpl.
           intros u. split; [intros [<-|[]]; split; auto; intros [|[]]; auto|].
           intros [[<-|[<-|[]]] H]; auto; tauto.
        -- assert (r = y). { destruct Hin as [->|[->|[]]]; auto. exfalso.
             assert (false = true) by now apply E. discriminate. }
           subst. split; [now right|]. rewrite selts_elt by auto. simpl.
           intros u. split; [intros [<-|[]]; split; auto; intros [|[]]; auto|].
           intros [[<-|[<-|[]]] H]; auto; tauto.
      * set (ll := x :: y :: z :: l') in *.
        destruct (filter_remove r ll) as (K1 & K2 & K3 & _); auto.
        set (kept := filter (fun x0 => negb (lequal x0 r)) ll) in *.
        specialize (K3 Hin).
        change (exists s, (if length kept =? length ll - 1 then init_choice cf kept
            {| f_sort := false; f_compress := false; f_realloc := true; f_atomic := a; f_conses := false |} else None)
            = Some s /\ represents s (fun x0 => In x0 ll /\ ~ In x0 [r])).
        rewrite K3, Nat.eqb_refl.
        destruct (init_choice_spec cf kept {| f_sort := false; f_compress := false; f_realloc := true;
             f_atomic := a; f_conses := false |}) as (s & -> & [R1 R2] & _); auto.
        -- apply Forall_forall. intros u Hu. apply K2 in Hu. eapply Forall_in; [exact F|tauto].
        -- cbn [f_atomic]. apply Forall_forall. intros u Hu. apply K2 in Hu. eapply Forall_in; [exact A|tauto].
        -- exists s. split; auto. split; auto. intros u. rewrite R2, K2. simpl. split; intros [? H]; split; auto.
           intros [|[]]; auto.
    + exists (SChoice a l). split; auto. split; auto. simpl. intros x. split; [|tauto]. intros Hx. split; auto.
      intros [<-|[]]. apply M in Hx. discriminate.
  - now apply choice_difference_spec.
Qed.

Lemma difference_spec cf value remove : cfg_ok cf -> lv_ok value -> lv_ok remove ->
  exists r, kno_difference cf value remove = Some r /\ lv_ok r /\ (lv_big value -> lv_big r) /\
    (forall x, In x (lelts r) <-> In x (lelts value) /\ ~ In x (lelts remove)).
Proof.
  intros Hcf Hv Hr.
  assert (Hgen : exists r, (do v <- simplify cf value; do r <- simplify cf remove;
      do s <- simple_difference cf v r; Some (Simple s)) = Some r /\ lv_ok r /\ (lv_big value -> lv_big r) /\
    (forall x, In x (lelts r) <-> In x (lelts value) /\ ~ In x (lelts remove))).
  { destruct (simplify_spec cf value Hcf Hv) as (v & -> & V1 & V2).
    destruct (simplify_spec cf remove Hcf Hr) as (r & -> & R1 & R2).
    destruct (simple_difference_spec cf v r Hcf V1 R1) as (s & -> & S1 & S2).
    exists (Simple s). split; auto. split; auto. split; [intros; exact I|]. intros x. simpl lelts. rewrite S2, V2, R2. tauto. }
  assert (He1 : match value with Simple s => is_empty s | Pre _ => false end = true ->
      (forall x, In x (lelts value) <-> In x (lelts value) /\ ~ In x (lelts remove))).
  { destruct value as [s|]; [|discriminate]. intros E x. simpl. apply is_empty_selts in E; auto. rewrite E. simpl. tauto. }
  assert (He2 : match remove with Simple s => is_empty s | Pre _ => false end = true ->
      (forall x, In x (lelts value) <-> In x (lelts value) /\ ~ In x (lelts remove))).
  { destruct remove as [s|]; [|discriminate]. intros E x. simpl lelts. apply is_empty_selts in E; auto. rewrite E. simpl. tauto. }
  destruct value as [v|p], remove as [r|q]; cbn [kno_difference]; auto.
  - destruct (is_empty v); [exists (Simple v); auto|]. exact Hgen.
  - destruct (is_empty r); [exists (Pre p); auto|]. exact Hgen.
Qed.

(** ** Overlap and containment *)
Lemma any_in_spec l c : Forall vp l -> Forall vp c -> ssorted c ->
  exists b, any_in l c = Some b /\ (b = true <-> exists x, In x l /\ In x c).
Proof.
  intros Vl Vc S. induction l as [|x l IH]; cbn [any_in].
  - exists false. split; auto. split; [discriminate|]. intros (x & [] & _).
  - inversion Vl; subst. destruct (containsp_spec c x) as (b & -> & M); auto. destruct b.
    + exists true. split; auto. split; auto. intros _. exists x. simpl. tauto.
    + destruct IH as (b & -> & M'); auto. exists b. split; auto. rewrite M'. split.
      * intros (y & ? & ?). exists y. simpl. auto.
      * intros (y & [<-|] & Hy); eauto. apply M in Hy. discriminate.
Qed.
Lemma every_in_spec l c : Forall vp l -> Forall vp c -> ssorted c ->
  exists b, every_in l c = Some b /\ (b = true <-> forall x, In x l -> In x c).
Proof.
  intros Vl Vc S. induction l as [|x l IH]; cbn [every_in].
  - exists true. split; auto. split; auto. intros _ x [].
  - inversion Vl; subst. destruct (containsp_spec c x) as (b & -> & M); auto. destruct b.
    + destruct IH as (b & -> & M'); auto. exists b. split; auto. rewrite M'. split.
      * intros H y [<-|]; auto. tauto.
      * intros H y Hy. apply H. now right.
    + exists false. split; auto. split; [discriminate|]. intros H. apply M. apply H. now left.
Qed.

Lemma overlapp_spec cf x y : cfg_ok cf -> lv_ok x -> lv_ok y ->
  (lelts x <> [] \/ lelts y <> [] \/ exists s, x = Simple s) ->
  exists b, kno_overlapp cf x y = Some b /\
    (b = true <-> exists v, In v (lelts x) /\ In v (lelts y)).
Proof.
  intros Hcf Hx Hy Hne. unfold kno_overlapp.
  destruct (match x with Simple s => is_empty s | _ => false end) eqn:E1.
  { exists false. split; auto. split; [discriminate|]. intros (v & Hv & _).
    destruct x as [s|]; [|discriminate]. apply is_empty_selts in E1; auto. simpl in Hv. rewrite E1 in Hv. destruct Hv. }
  destruct (match y with Simple s => is_empty s | _ => false end) eqn:E2.
  { exists false. split; auto. split; [discriminate|]. intros (v & _ & Hv).
    destruct y as [s|]; [|discriminate]. apply is_empty_selts in E2; auto. simpl in Hv. rewrite E2 in Hv. destruct Hv. }
  destruct (simplify_spec cf x Hcf Hx) as (sx & -> & X1 & X2).
  destruct (simplify_spec cf y Hcf Hy) as (sy & -> & Y1 & Y2).
  assert (Hgoal : forall b, (b = true <-> exists v, In v (selts sx) /\ In v (selts sy)) ->
     (b = true <-> exists v, In v (lelts x) /\ In v (lelts y))).
  { intros b ->. split; intros (v & ? & ?); exists v; split; try apply X2; try apply Y2; auto. }
  destruct sx as [v|a l], sy as [w|b m].
  - exists (lequal v w). split; auto. apply Hgoal.
    pose proof (toval_vp _ X1). pose proof (toval_vp _ Y1). simpl in H, H0. rewrite leq_eq by auto.
    destruct X1 as [->|Ov], Y1 as [->|Ow]; rewrite ?selts_elt by auto; simpl.
    + split.
      * intros _. exfalso. simpl in X2, Y2.
        assert (Lx : lelts x = []) by (destruct (lelts x) as [|u ?]; auto; exfalso; apply (X2 u); now left).
        assert (Ly : lelts y = []) by (destruct (lelts y) as [|u ?]; auto; exfalso; apply (Y2 u); now left).
        destruct Hne as [|[|(s & ->)]]; auto.
        simpl in Lx. apply is_empty_selts in Lx; auto. congruence.
      * intros (u & [] & _).
    + split; [|intros (u & [] & _)]. intros <-. now destruct Ow as (_ & Hn & _).
    + split; [|intros (u & _ & [])]. intros ->. now destruct Ov as (_ & Hn & _).
    + split; [intros ->; exists w; auto|]. intros (u & [->|[]] & [->|[]]). reflexivity.
  - destruct Y1 as (F & S & _). destruct (containsp_spec m v) as (c & -> & M); auto.
    { apply toval_vp in X1. exact X1. }
    exists c. split; auto. apply Hgoal. destruct X1 as [->|Ov].
    + rewrite M. simpl. split; [|intros (u & [] & _)].
      intros Hin. eapply Forall_in in F; eauto. now destruct F as (_ & Hn & _).
    + rewrite selts_elt by auto. rewrite M. simpl. split; [intros; exists v; auto|intros (u & [->|[]] & ?); auto].
  - destruct X1 as (F & S & _). destruct (containsp_spec l w) as (c & -> & M); auto.
    { apply toval_vp in Y1. exact Y1. }
    exists c. split; auto. apply Hgoal. destruct Y1 as [->|Ow].
    + rewrite M. simpl. split; [|intros (u & _ & [])].
      intros Hin. eapply Forall_in in F; eauto. now destruct F as (_ & Hn & _).
    + rewrite selts_elt by auto. rewrite M. simpl. split; [intros; exists w; auto|intros (u & ? & [->|[]]); auto].
  - destruct X1 as (F & S & _), Y1 as (F' & S' & _). destruct (length m <? length l).
    + destruct (any_in_spec m l) as (c & -> & M); auto. exists c. split; auto. apply Hgoal. rewrite M.
      split; intros (u & ? & ?); exists u; auto.
    + destruct (any_in_spec l m) as (c & -> & M); auto. exists c. split; auto.
Qed.

Lemma lelts_nonempty_simple x s : lv_ok x -> represents s (fun v => In v (lelts x)) -> lelts x <> [] -> is_empty s = false.
Proof.
  intros Hx [S1 S2] Hne. destruct (is_empty s) eqn:E; auto. apply is_empty_selts in E; auto.
  exfalso. apply Hne. destruct (lelts x) as [|u ?]; auto. exfalso. rewrite E in S2. apply (S2 u). now left.
Qed.

Lemma kno_containsp_spec cf x y : cfg_ok cf -> lv_ok x -> lv_ok y -> lelts x <> [] ->
  exists b, kno_containsp cf x y = Some b /\
    (b = true <-> forall v, In v (lelts x) -> In v (lelts y)).
Proof.
  intros Hcf Hx Hy Hne. unfold kno_containsp.
  destruct (match x with Simple s => is_empty s | _ => false end) eqn:E1.
  { exfalso. destruct x as [s|]; [|discriminate]. apply is_empty_selts in E1; auto. }
  destruct (match y with Simple s => is_empty s | _ => false end) eqn:E2.
  { exists false. split; auto. split; [discriminate|]. intros H. exfalso.
    destruct y as [s|]; [|discriminate]. apply is_empty_selts in E2; auto. simpl in H. rewrite E2 in H.
    destruct (lelts x) as [|u ?]; auto. apply (H u). now left. }
  destruct (simplify_spec cf x Hcf Hx) as (sx & -> & X1 & X2).
  destruct (simplify_spec cf y Hcf Hy) as (sy & -> & Y1 & Y2).
  pose proof (lelts_nonempty_simple x sx Hx (conj X1 X2) Hne) as Ex.
  assert (Hgoal : forall b, (b = true <-> forall v, In v (selts sx) -> In v (selts sy)) ->
     (b = true <-> forall v, In v (lelts x) -> In v (lelts y))).
  { intros b ->. split; intros H v Hv.
    - apply Y2. apply H. apply X2. exact Hv.
    - apply Y2. apply H. apply X2. exact Hv. }
  destruct sx as [v|a l], sy as [w|b m].
  - assert (Ov : elt_ok v) by (now apply entry_sval).
    exists (lequal v w). split; auto. apply Hgoal. rewrite selts_elt by auto.
    pose proof (toval_vp _ Y1) as Vw. simpl in Vw. rewrite leq_eq by auto.
    destruct Y1 as [->|Ow].
    + simpl. split; [intros ->; now destruct Ov as (_ & Hn & _)|]. intros H. exfalso. apply (H v). now left.
    + rewrite selts_elt by auto. simpl. split; [intros ->; auto|]. intros H. destruct (H v) as [|[]]; auto.
  - assert (Ov : elt_ok v) by (now apply entry_sval). destruct Y1 as (F & S & _).
    destruct (containsp_spec m v) as (c & -> & M); auto. exists c. split; auto. apply Hgoal.
    rewrite selts_elt by auto. rewrite M. simpl. split; [intros H u [<-|[]]; auto|]. intros H. apply H. now left.
  - exists false. split; auto. apply Hgoal. split; [discriminate|]. intros H. exfalso.
    destruct X1 as (F & S & L & _). destruct (ssorted_two l) as (u & z & Hu & Hz & Hd); auto.
    simpl in H. apply H in Hu, Hz. destruct (emptyp w); [destruct Hu|].
    destruct Hu as [<-|[]], Hz as [<-|[]]. congruence.
  - destruct X1 as (F & S & _), Y1 as (F' & S' & _).
    destruct (every_in_spec l m) as (c & -> & M); auto. exists c. split; auto.
Qed.

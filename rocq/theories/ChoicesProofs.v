(** * Proofs about choices. *)
From Coq Require Import Lia Permutation Sorting.Sorted.
From Verif Require Import ValueModel ValueProofs SortModel SortProofs ChoicesModel.

(** ** Values that can be elements of a choice *)

Definition vp (x : val) : Prop := vok x = true /\ plain x = true.
Definition elt_ok (x : val) : Prop :=
  vp x /\ x <> KEMPTY /\ x <> KVOID /\ x <> NEVERSEEN /\ (forall l, x <> VChoice l).
Definition lt (x y : val) : Prop := cons_compare x y = Lt.
Definition cle (x y : val) : Prop := cons_compare x y <> Gt.
(** If the atomic flag is set, everything is atomic. *)
Definition aok (a : bool) (x : val) : Prop := a = true -> atomicp x = true.

Lemma cmp_eq x y : vp x -> vp y -> (cons_compare x y = Eq <-> x = y).
Proof. intros [] []. rewrite cons_compare_q. now apply qcompare_eq. Qed.
Lemma cmp_opp x y : vp x -> vp y -> cons_compare y x = CompOpp (cons_compare x y).
Proof. intros [] []. rewrite !cons_compare_q. now apply qcompare_opp. Qed.
Lemma cmp_refl x : vp x -> cons_compare x x = Eq.
Proof. intros H. now apply cmp_eq. Qed.
Lemma lt_trans x y z : vp x -> vp y -> vp z -> lt x y -> lt y z -> lt x z.
Proof. intros [] [] []. unfold lt. rewrite !cons_compare_q. now apply qcompare_trans. Qed.
Lemma cle_cases x y : vp x -> vp y -> cle x y <-> lt x y \/ x = y.
Proof.
  intros Hx Hy. unfold cle, lt. pose proof (cmp_eq x y Hx Hy) as E.
  destruct (cons_compare x y).
  - split; [|discriminate]. intros _. right. now apply E.
  - split; [tauto|discriminate].
  - split; [congruence|]. intros [|H]; [discriminate|]. apply E in H. discriminate.
Qed.
Lemma cle_lt_trans x y z : vp x -> vp y -> vp z -> cle x y -> lt y z -> lt x z.
Proof. intros Hx Hy Hz H1 H2. apply cle_cases in H1; auto. destruct H1 as [| ->]; eauto using lt_trans. Qed.
Lemma lt_cle_trans x y z : vp x -> vp y -> vp z -> lt x y -> cle y z -> lt x z.
Proof. intros Hx Hy Hz H1 H2. apply cle_cases in H2; auto. destruct H2 as [| <-]; eauto using lt_trans. Qed.
Lemma cle_trans x y z : vp x -> vp y -> vp z -> cle x y -> cle y z -> cle x z.
Proof.
  intros Hx Hy Hz H1 H2. apply cle_cases in H1; auto. destruct H1 as [H1| ->]; auto.
  apply cle_cases; [auto|auto|]. left. exact (lt_cle_trans x y z Hx Hy Hz H1 H2).
Qed.
Lemma lt_irrefl x : vp x -> ~ lt x x.
Proof. intros H. unfold lt. rewrite cmp_refl; auto. discriminate. Qed.
Lemma lt_not_cle x y : vp x -> vp y -> lt x y -> ~ cle y x.
Proof. intros Hx Hy. unfold lt, cle. rewrite (cmp_opp x y) by auto. intros ->. simpl. auto. Qed.
Lemma not_cle_lt x y : vp x -> vp y -> ~ cle x y -> lt y x.
Proof.
  intros Hx Hy. unfold cle, lt. rewrite (cmp_opp x y) by auto.
  destruct (cons_compare x y); simpl; auto; intros H; exfalso; apply H; discriminate.
Qed.
Lemma leq_eq x y : vp x -> vp y -> (lequal x y = true <-> x = y).
Proof. intros [] []. now apply lequal_spec. Qed.
Lemma wcmp_eq x y : atomicp x = true -> atomicp y = true -> wcmp x y = Some (cons_compare x y).
Proof. destruct x, y; try discriminate. reflexivity. Qed.
Lemma weq_eq x y : atomicp x = true -> atomicp y = true ->
  exists b, weq x y = Some b /\ (b = true <-> x = y).
Proof.
  destruct x, y; try discriminate. intros _ _. exists (N.eqb w w0). split; [reflexivity|].
  rewrite N.eqb_eq. split; congruence.
Qed.
Lemma elt_vp x : elt_ok x -> vp x. Proof. now intros []. Qed.
Lemma elts_vp l : Forall elt_ok l -> Forall vp l.
Proof. apply Forall_impl. apply elt_vp. Qed.
#[export] Hint Resolve elt_vp elts_vp : core.
Lemma emptyp_iff x : emptyp x = true <-> x = KEMPTY.
Proof.
  destruct x; simpl; split; try discriminate.
  - intros H. apply N.eqb_eq in H. now subst.
  - intros E. injection E as ->. reflexivity.
Qed.
Lemma voidp_iff x : voidp x = true <-> x = KVOID.
Proof.
  destruct x; simpl; split; try discriminate.
  - intros H. apply N.eqb_eq in H. now subst.
  - intros E. injection E as ->. reflexivity.
Qed.
Lemma elt_nonempty x : elt_ok x -> emptyp x = false.
Proof.
  intros (_ & H & _). destruct (emptyp x) eqn:E; auto. now apply emptyp_iff in E.
Qed.
Lemma elt_nonvoid x : elt_ok x -> voidp x = false.
Proof.
  intros (_ & _ & H & _). destruct (voidp x) eqn:E; auto. now apply voidp_iff in E.
Qed.

Lemma Forall_in {A} (P : A -> Prop) l x : Forall P l -> In x l -> P x.
Proof. rewrite Forall_forall. auto. Qed.

(** ** Strictly sorted lists *)

Definition ssorted (l : list val) : Prop := StronglySorted lt l.

Lemma ssorted_unique l : forall m, Forall vp l -> Forall vp m -> ssorted l -> ssorted m ->
  (forall x, In x l <-> In x m) -> l = m.
Proof.
  unfold ssorted. induction l as [|a l IH]; intros m Hl Hm Sl Sm E.
  - destruct m as [|b m]; [reflexivity|]. exfalso. apply (E b). now left.
  - destruct m as [|b m]; [exfalso; apply (E a); now left|].
    inversion Hl; inversion Hm; inversion Sl; inversion Sm; subst.
    assert (a = b).
    { assert (Ha : In a (b :: m)) by (apply E; now left).
      assert (Hb : In b (a :: l)) by (apply E; now left).
      destruct Ha as [Ha|Ha]; [auto|]. destruct Hb as [Hb|Hb]; [auto|]. exfalso.
      assert (lt b a) by (eapply Forall_in; eauto).
      assert (lt a b) by (eapply Forall_in; eauto).
      apply (lt_irrefl a); auto. eapply lt_trans; eauto. }
    subst b. f_equal. apply IH; auto. intros x. split; intros Hx.
    + assert (Hx' : In x (a :: m)) by (apply E; now right).
      destruct Hx' as [<-|]; auto. exfalso. apply (lt_irrefl a); auto. now apply (Forall_in (lt a) l).
    + assert (Hx' : In x (a :: l)) by (apply E; now right).
      destruct Hx' as [<-|]; auto. exfalso. apply (lt_irrefl a); auto. now apply (Forall_in (lt a) m).
Qed.
Lemma ssorted_cle l : Forall vp l -> ssorted l -> StronglySorted cle l.
Proof.
  unfold ssorted. induction 2; constructor; auto.
  - inversion H; auto.
  - eapply Forall_impl; [|exact H1]. unfold lt, cle. congruence.
Qed.

(** ** Sort and compress *)

Lemma choice_cmp_ok a x y : aok a x -> aok a y -> choice_cmp a x y = Some (cons_compare x y).
Proof. unfold aok, choice_cmp. destruct a; auto. intros. apply wcmp_eq; auto. Qed.

Lemma choice_sort_spec a v : Forall vp v -> Forall (aok a) v ->
  exists v', choice_sort a v = Some v' /\ Permutation v v' /\ StronglySorted cle v'.
Proof.
  intros Hv Ha. unfold choice_sort.
  apply (sort_vec_spec (choice_cmp a) (fun x => vp x /\ aok a x) cons_compare).
  - intros x y [] []. now apply choice_cmp_ok.
  - intros x y [] []. now apply cmp_opp.
  - intros x y z [] [] []. now apply cle_trans.
  - rewrite Forall_forall in *. auto.
Qed.

Lemma compress_loop_spec a scan : forall pt, Forall elt_ok scan -> Forall (aok a) scan ->
  elt_ok pt -> aok a pt -> StronglySorted cle (pt :: scan) ->
  exists r, compress_loop a pt scan = Some r /\ ssorted (pt :: r) /\
    (forall x, In x (pt :: r) <-> In x (pt :: scan)).
Proof.
  induction scan as [|e scan IH]; intros pt Hs Ha Hp Hap S.
  - exists []. split; [reflexivity|]. split; [repeat constructor|tauto].
  - inversion Hs; inversion Ha; subst. cbn [compress_loop].
    rewrite elt_nonempty by auto.
    inversion S as [|? ? S1 F1]; subst. inversion S1 as [|? ? S2 F2]; subst. inversion F1 as [|? ? Hce F3]; subst.
    assert (He : exists b, (if a then weq pt e else Some (is_eq (cons_compare pt e))) = Some b
                           /\ (b = true <-> pt = e)).
    { destruct a.
      - apply weq_eq; auto.
      - exists (is_eq (cons_compare pt e)). split; auto.
        rewrite <- cmp_eq by auto. destruct (cons_compare pt e); simpl; split; congruence. }
    destruct He as (b & -> & Hb). destruct b.
    + assert (e = pt) by (symmetry; now apply Hb). subst e.
      destruct (IH pt) as (r & E1 & E2 & E3); auto.
      exists r. split; [exact E1|]. split; [exact E2|]. intros x. rewrite E3. simpl. tauto.
    + destruct (IH e) as (r & E1 & E2 & E3); auto.
      rewrite E1. exists (e :: r). split; [reflexivity|]. split.
      * constructor; [exact E2|].
        assert (lt pt e). { apply cle_cases in Hce; auto. destruct Hce as [|E]; auto. apply Hb in E. discriminate. }
        constructor; auto. inversion E2; subst.
        apply Forall_forall. intros y Hy.
        assert (Hly : lt e y) by (eapply Forall_in; eauto).
        apply (lt_trans pt e y); auto.
        apply (Forall_in vp (e :: scan)); [constructor; auto|apply E3; now right].
      * intros x. split; intros [->|Hx]; simpl; auto; right; apply E3; auto.
Qed.
Lemma compress_spec a v : Forall elt_ok v -> Forall (aok a) v -> StronglySorted cle v ->
  exists r, compress a v = Some r /\ ssorted r /\ (forall x, In x r <-> In x v).
Proof.
  destruct v as [|pt scan]; intros Hv Ha S.
  - exists []. repeat split; auto; constructor.
  - inversion Hv; inversion Ha; subst. cbn [compress]. rewrite elt_nonempty by auto.
    destruct (compress_loop_spec a scan pt) as (r & E1 & E2 & E3); auto.
    rewrite E1. exists (pt :: r). auto.
Qed.

(** ** Binary search *)

Lemma zget_nth v i : (0 <= i)%Z -> zget v i = nth_error v (Z.to_nat i).
Proof. intros H. unfold zget. destruct (Z.ltb_spec i 0); [lia|reflexivity]. Qed.

Lemma ssorted_nth l : ssorted l -> forall i j x y, i < j ->
  nth_error l i = Some x -> nth_error l j = Some y -> lt x y.
Proof.
  induction 1 as [|a l S IH F]; intros i j x y Hij Hi Hj.
  - destruct i; discriminate.
  - destruct j as [|j]; [lia|]. destruct i as [|i]; simpl in *.
    + injection Hi as ->. eapply Forall_in; eauto. eapply nth_error_In; eauto.
    + eapply (IH i j); eauto. lia.
Qed.

Lemma bsearch_spec v x : Forall vp v -> ssorted v -> vp x ->
  forall fuel bottom top,
  (0 <= bottom)%Z -> (top < Z.of_nat (length v))%Z -> (-1 <= top)%Z ->
  (top - bottom + 1 <= Z.of_nat fuel)%Z ->
  (forall k y, (Z.of_nat k < bottom)%Z -> nth_error v k = Some y -> y <> x) ->
  (forall k y, (top < Z.of_nat k)%Z -> nth_error v k = Some y -> y <> x) ->
  exists b, bsearch fuel x v bottom top = Some b /\ (b = true <-> In x v).
Proof.
  intros Hv Sv Hx. induction fuel as [|f IH]; intros bottom top Hb Ht Ht' Hf Hlo Hhi.
  - cbn [bsearch]. destruct (Z.ltb_spec top bottom); [|lia].
    exists false. split; [reflexivity|]. split; [discriminate|]. intros Hin.
    apply In_nth_error in Hin. destruct Hin as (k & Hk). exfalso.
    destruct (Z.lt_ge_cases (Z.of_nat k) bottom).
    + eapply Hlo; eauto. + eapply (Hhi k); eauto. lia.
  - cbn [bsearch]. destruct (Z.ltb_spec top bottom).
    + exists false. split; [reflexivity|]. split; [discriminate|]. intros Hin.
      apply In_nth_error in Hin. destruct Hin as (k & Hk). exfalso.
      destruct (Z.lt_ge_cases (Z.of_nat k) bottom).
      * eapply Hlo; eauto. * eapply (Hhi k); eauto. lia.
    + set (m := (bottom + Z.quot (top - bottom) 2)%Z).
      assert (Hm : (bottom <= m <= top)%Z).
      { unfold m. rewrite Z.quot_div_nonneg by lia.
        assert (0 <= (top - bottom) / 2)%Z by (apply Z.div_pos; lia).
        assert ((top - bottom) / 2 <= top - bottom)%Z by (apply Z.div_le_upper_bound; lia). lia. }
      rewrite zget_nth by lia.
      destruct (nth_error v (Z.to_nat m)) as [y|] eqn:Ey.
      2:{ apply nth_error_None in Ey. lia. }
      assert (Hy : vp y) by (eapply Forall_in; eauto; eapply nth_error_In; eauto).
      assert (Hleft : lt x y -> exists b, bsearch f x v bottom (m - 1) = Some b /\ (b = true <-> In x v)).
      { intros Hlt. apply IH; auto; try lia.
        intros k z Hk Hz Heq. subst z.
        destruct (Z.eq_dec (Z.of_nat k) m) as [E|].
        - assert (k = Z.to_nat m) by lia. subst k. assert (x = y) by congruence. subst.
          eapply lt_irrefl; eauto.
        - assert (lt y x) by (eapply (ssorted_nth v Sv (Z.to_nat m) k); eauto; lia).
          apply (lt_irrefl x); auto. eapply lt_trans; eauto. }
      assert (Hright : lt y x -> exists b, bsearch f x v (m + 1) top = Some b /\ (b = true <-> In x v)).
      { intros Hlt. apply IH; auto; try lia.
        intros k z Hk Hz Heq. subst z.
        destruct (Z.eq_dec (Z.of_nat k) m) as [E|].
        - assert (k = Z.to_nat m) by lia. subst k. assert (x = y) by congruence. subst.
          eapply lt_irrefl; eauto.
        - assert (lt x y) by (eapply (ssorted_nth v Sv k (Z.to_nat m)); eauto; lia).
          apply (lt_irrefl x); auto. eapply lt_trans; eauto. }
      assert (Hfound : x = y -> exists b, Some true = Some b /\ (b = true <-> In x v)).
      { intros ->. exists true. split; auto. split; auto. intros _. eapply nth_error_In; eauto. }
      assert (Hcons : exists b, match cons_compare x y with
          | Eq => Some true | Lt => bsearch f x v bottom (m - 1)
          | Gt => bsearch f x v (m + 1) top end = Some b /\ (b = true <-> In x v)).
      { destruct (cons_compare x y) eqn:Ec.
        - apply Hfound. now apply cmp_eq.
        - apply Hleft. exact Ec.
        - apply Hright. unfold lt. rewrite (cmp_opp x y) by auto. now rewrite Ec. }
      destruct x; try exact Hcons.
      destruct y; try (apply Hleft; reflexivity).
      destruct (N.eqb_spec w w0); [apply Hfound; congruence|].
      destruct (N.ltb_spec w w0).
      * apply Hleft. unfold lt. cbn. now apply N.compare_lt_iff.
      * apply Hright. unfold lt. cbn. apply N.compare_lt_iff. lia.
Qed.

Lemma containsp_spec v x : Forall vp v -> ssorted v -> vp x ->
  exists b, choice_containsp x v = Some b /\ (b = true <-> In x v).
Proof.
  intros. unfold choice_containsp. apply bsearch_spec; auto; try lia.
  intros k y Hk Hy. assert (k < length v) by (apply nth_error_Some; congruence). lia.
Qed.

(** ** Merging *)
Section Merge.
Variable a : bool.

Definition elt (x : val) : Prop := elt_ok x /\ aok a x.
Definition scanner_ok (s : scanner) : Prop :=
  (exists t, rest s = top s :: t) /\ Forall elt (rest s) /\ StronglySorted cle (rest s).
Definition scanners_sorted (v : list scanner) : Prop :=
  StronglySorted (fun s t => cle (top s) (top t)) v.
Definition all_elts (v : list scanner) : list val := flat_map rest v.

(** [last] is either the initial marker or an element that is below everything that is
    left. *)
Definition last_ok (last : val) (v : list val) : Prop :=
  last = NEVERSEEN \/ (elt last /\ Forall (cle last) v).

Lemma vp_never : vp NEVERSEEN. Proof. split; reflexivity. Qed.
Lemma last_vp last v : last_ok last v -> vp last /\ aok a last.
Proof.
  intros [->|[[H H'] _]]; auto. split; [apply vp_never|]. intros _. reflexivity.
Qed.
Lemma scan_eq_spec x y : vp x -> aok a x -> vp y -> aok a y ->
  exists b, scan_eq a x y = Some b /\ (b = true <-> x = y).
Proof.
  intros. unfold scan_eq. destruct a.
  - apply weq_eq; auto.
  - exists (lequal x y). split; auto. now apply leq_eq.
Qed.
Lemma elt_vp' x : elt x -> vp x. Proof. intros []. auto. Qed.
Lemma elt_aok x : elt x -> aok a x. Proof. now intros []. Qed.
Hint Resolve elt_vp' elt_aok : core.

Lemma copy_rest_spec l : forall last, Forall elt l -> StronglySorted cle l -> last_ok last l ->
  exists r, copy_rest a last l = Some r /\ ssorted r /\
    (forall x, In x r <-> In x l /\ x <> last) /\ (last = NEVERSEEN \/ Forall (lt last) r).
Proof.
  induction l as [|e l IH]; intros last Hl Sl HL.
  - exists []. split; [reflexivity|]. split; [constructor|]. split; [simpl; tauto|right; constructor].
  - cbn [copy_rest].
    inversion Hl as [|? ? He Hl']; inversion Sl as [|? ? Sl' Fl]; subst.
    destruct (last_vp _ _ HL) as [Vl Al].
    destruct (scan_eq_spec e last) as (b & -> & Hb); auto.
    destruct b.
    + destruct (proj1 Hb eq_refl).
      destruct (IH e) as (r & E1 & E2 & E3 & E4); auto.
      { right. split; auto. }
      exists r. split; auto. split; auto. split; auto. intros x. rewrite E3. simpl. split; [tauto|].
      intros [[->|] Hn]; tauto.
    + assert (Hne : e <> last) by (intros E; apply Hb in E; discriminate).
      destruct (IH e) as (r & -> & E2 & E3 & E4); auto. { right. split; auto. }
      assert (E4' : Forall (lt e) r).
      { destruct E4; auto. subst. exfalso. destruct He as [(_ & _ & _ & ? & _) _]. congruence. }
      exists (e :: r). split; auto. split; [constructor; auto|]. split.
      * intros x. simpl. rewrite E3. split.
        -- intros [<-|[Hx Hn]]; auto. split; [auto|]. intros ->.
           destruct HL as [->|[Hel Hf]].
           ++ assert (Hxe : elt NEVERSEEN) by (eapply Forall_in; [exact Hl'|exact Hx]).
              destruct Hxe as [(_ & _ & _ & Hxx & _) _]. congruence.
           ++ inversion Hf as [|? ? Hle Hf']; subst.
              assert (lt last e). { apply cle_cases in Hle; auto. destruct Hle; auto. congruence. }
              apply (lt_not_cle last e); auto. now apply (Forall_in (cle e) l).
        -- intros [[->|Hx] Hn]; auto. destruct (scan_eq_spec x e) as (b & _ & Hb'); auto.
           { apply elt_vp'. eapply Forall_in; eauto. } { apply elt_aok. eapply Forall_in; eauto. }
           destruct b; [left; symmetry; now apply Hb'|right; split; auto].
           intros E; apply Hb' in E; discriminate.
      * destruct HL as [->|[Hel Hf]]; [auto|]. right. inversion Hf as [|? ? Hle Hf']; subst.
        assert (lt last e). { apply cle_cases in Hle; auto. destruct Hle; auto. congruence. }
        constructor; auto. rewrite Forall_forall in *. intros y Hy.
        eapply lt_trans; [ | | | eassumption | apply E4'; auto]; auto.
        apply E3 in Hy. destruct Hy as [Hy _]. apply elt_vp'. auto.
Qed.

Lemma skip_equal_spec l : forall last, Forall elt l -> StronglySorted cle l -> vp last -> aok a last ->
  exists l', skip_equal a last l = Some l' /\ length l' <= length l /\
    Forall elt l' /\ StronglySorted cle l' /\
    (forall x, In x l' -> In x l) /\ (forall x, In x l -> In x l' \/ x = last).
Proof.
  induction l as [|e l IH]; intros last Hl Sl Vl Al.
  - exists []. repeat split; auto.
  - cbn [skip_equal]. inversion Hl; inversion Sl; subst.
    destruct (scan_eq_spec e last) as (b & -> & Hb); auto. destruct b.
    + destruct (proj1 Hb eq_refl). destruct (IH e) as (l' & E1 & E2 & E3 & E4 & E5 & E6); auto.
      exists l'. split; auto. simpl. repeat split; auto. intros x [->|Hx]; auto.
    + exists (e :: l). repeat split; auto.
Qed.

Lemma insert_scanner_spec s v : scanner_ok s -> Forall scanner_ok v -> scanners_sorted v ->
  exists r, insert_scanner a s v = Some r /\ Forall scanner_ok r /\ scanners_sorted r /\
    Permutation (s :: v) r.
Proof.
  unfold scanners_sorted. intros Hs. induction v as [|t v IH]; intros Hv Sv.
  - exists [s]. repeat split; auto. constructor; auto; constructor.
  - cbn [insert_scanner]. inversion Hv; inversion Sv; subst.
    assert (Ets : elt (top s)).
    { destruct Hs as [(t1 & E) [F _]]. rewrite E in F. now inversion F. }
    assert (Ett : elt (top t)).
    { destruct H1 as [(t1 & E) [F _]]. rewrite E in F. now inversion F. }
    rewrite choice_cmp_ok by auto.
    assert (Hput : cle (top s) (top t) -> StronglySorted (fun s t => cle (top s) (top t)) (s :: t :: v)).
    { intros Hc. constructor; auto. constructor; auto. rewrite Forall_forall in *.
      intros u Hu. specialize (H6 u Hu). 
      assert (elt (top u)). { destruct (H2 u Hu) as [(t1 & E) [F _]]. rewrite E in F. now inversion F. }
      eapply (cle_trans _ (top t)); auto. }
    destruct (cons_compare (top s) (top t)) eqn:Ec.
    1,2: exists (s :: t :: v); repeat split; auto; apply Hput; unfold cle; congruence.
    destruct IH as (r & -> & E1 & E2 & E3); auto.
    exists (t :: r). repeat split; auto.
    + constructor; auto. apply (Permutation_Forall (P:=fun u => cle (top t) (top u)) E3).
      constructor; auto. unfold cle. rewrite (cmp_opp (top s)) by auto. rewrite Ec. discriminate.
    + rewrite perm_swap. now constructor.
Qed.

Lemma all_elts_perm v w : Permutation v w -> Permutation (all_elts v) (all_elts w).
Proof. intros H. unfold all_elts. now apply Permutation_flat_map. Qed.
Lemma total_rest_perm v w : Permutation v w -> total_rest v = total_rest w.
Proof.
  unfold total_rest. induction 1; simpl in *; try lia.
Qed.

Lemma scanner_elts_lb s v x : scanner_ok s -> Forall scanner_ok v -> scanners_sorted (s :: v) ->
  In x (all_elts (s :: v)) -> cle (top s) x.
Proof.
  intros Hs Hv Sv Hx. unfold all_elts in Hx. apply in_flat_map in Hx. destruct Hx as (t & Ht & Hx).
  assert (Hok : scanner_ok t) by (destruct Ht as [<-|Ht]; auto; eapply Forall_in; eauto).
  destruct Hok as [(r & E) [F S]].
  assert (H1 : cle (top t) x).
  { rewrite E in *. inversion S; inversion F; subst. destruct Hx as [<-|Hx].
    - unfold cle. rewrite cmp_refl by auto. discriminate.
    - eapply Forall_in; eauto. }
  destruct Ht as [<-|Ht]; auto.
  inversion Sv as [|? ? S1 F1]; subst. rewrite Forall_forall in F1. specialize (F1 t Ht).
  assert (elt (top s)). { destruct Hs as [(r' & E') [F' _]]. rewrite E' in F'. now inversion F'. }
  assert (elt (top t)). { rewrite E in F. now inversion F. }
  assert (elt x) by (eapply Forall_in; eauto).
  eapply (cle_trans _ (top t)); auto.
Qed.

Lemma drop_exhausted_ok v : Forall scanner_ok v -> drop_exhausted v = v.
Proof.
  destruct v as [|s v]; [reflexivity|]. intros H. inversion H as [|? ? Hs Hv]; subst.
  simpl. destruct Hs as [(t & ->) _]. reflexivity.
Qed.

Lemma all_elts_ok v : Forall scanner_ok v -> Forall elt (all_elts v).
Proof.
  intros H. apply Forall_forall. intros x Hx. apply in_flat_map in Hx. destruct Hx as (s & Hs & Hx).
  rewrite Forall_forall in H. destruct (H s Hs) as [_ [F _]]. eapply Forall_in; eauto.
Qed.

Lemma scanner_loop_spec : forall fuel last v,
  total_rest v < fuel -> Forall scanner_ok v -> scanners_sorted v -> last_ok last (all_elts v) ->
  exists r, scanner_loop a fuel last v = Some r /\ ssorted r /\
    (forall x, In x r <-> In x (all_elts v) /\ x <> last) /\
    (last = NEVERSEEN \/ Forall (lt last) r).
Proof.
  induction fuel as [|f IH]; intros last v Hf Hv Sv HL; [lia|].
  destruct v as [|s0 [|s1 others]].
  - exists []. split; [reflexivity|]. split; [constructor|]. split; [simpl; tauto|right; constructor].
  - inversion Hv as [|? ? [(t & E) [F S]] _]; subst.
    cbn [scanner_loop]. replace (all_elts [s0]) with (rest s0) in *
      by (unfold all_elts; simpl; now rewrite app_nil_r).
    now apply copy_rest_spec.
  - cbn [scanner_loop].
    pose proof (all_elts_ok _ Hv) as Hall.
    inversion Hv as [|? ? Hs0 Hv1]; subst. inversion Hv1 as [|? ? Hs1 Hv2]; subst.
    inversion Sv as [|? ? Sv1 Fv1]; subst.
    assert (Et0 : elt (top s0)).
    { destruct Hs0 as [(t1 & E) [F _]]. rewrite E in F. now inversion F. }
    assert (Et1 : elt (top s1)).
    { destruct Hs1 as [(t1 & E) [F _]]. rewrite E in F. now inversion F. }
    destruct (last_vp _ _ HL) as [Vl Al].
    destruct (scan_eq_spec (top s0) last) as (e & -> & He); auto.
    set (last' := if e then last else top s0).
    assert (Hlast' : last' = top s0).
    { unfold last'. destruct e; auto. symmetry. now apply He. }
    clearbody last'. subst last'.
    assert (Hlb : Forall (cle (top s0)) (all_elts (s0 :: s1 :: others))).
    { apply Forall_forall. intros x Hx. apply (scanner_elts_lb s0 (s1 :: others)); auto. }
    destruct Hs0 as [(t & E0) [F0 S0]].
    unfold pop. rewrite E0. cbn [tl].
    assert (Ft : Forall elt t) by (rewrite E0 in F0; now inversion F0).
    assert (St : StronglySorted cle t) by (rewrite E0 in S0; now inversion S0).
    destruct (skip_equal_spec t (top s0)) as (l' & -> & L1 & L2 & L3 & L4 & L5); auto.
    set (s0' := match l' with [] => {| top := top s0; rest := [] |} | x :: _ => {| top := x; rest := l' |} end).
    assert (Hrest : rest s0' = l') by (unfold s0'; destruct l'; reflexivity).
    (* the state after the step *)
    assert (Hstep : exists v', match rest s0' with
         | [] => shuffle_scanners a s0' (s1 :: others)
         | _ => match choice_cmp a (top s0') (top s1) with
                | Some Lt => Some (s0' :: s1 :: others)
                | Some _ => shuffle_scanners a s0' (s1 :: others)
                | None => None end end = Some v' /\
         Forall scanner_ok v' /\ scanners_sorted v' /\ total_rest v' < f /\
         (forall x, In x (all_elts v') <-> In x l' \/ In x (all_elts (s1 :: others)))).
    { assert (Hf' : length l' + total_rest (s1 :: others) < f).
      { unfold total_rest in *. simpl in *. rewrite E0 in Hf. simpl in Hf. lia. }
      destruct l' as [|y l''].
      - rewrite Hrest. unfold shuffle_scanners. rewrite Hrest.
        rewrite drop_exhausted_ok by auto.
        exists (s1 :: others). split; [reflexivity|]. split; [auto|]. split; [auto|]. split; [simpl in *; lia|].
        intros x. simpl. tauto.
      - assert (Hs0' : s0' = {| top := y; rest := y :: l'' |}) by reflexivity.
        assert (Hok' : scanner_ok s0').
        { rewrite Hs0'. split; [exists l''; reflexivity|]. simpl. auto. }
        assert (Hey : elt y) by (inversion L2; auto).
        assert (Hel : forall x, In x (all_elts (s0' :: s1 :: others)) <->
                          In x (y :: l'') \/ In x (all_elts (s1 :: others))).
        { intros x. unfold all_elts at 1. cbn [flat_map]. rewrite in_app_iff. rewrite Hrest. reflexivity. }
        assert (Hsh : exists v', shuffle_scanners a s0' (s1 :: others) = Some v' /\
          Forall scanner_ok v' /\ scanners_sorted v' /\ total_rest v' < f /\
          (forall x, In x (all_elts v') <-> In x (y :: l'') \/ In x (all_elts (s1 :: others)))).
        { unfold shuffle_scanners. rewrite Hrest.
          destruct (insert_scanner_spec s0' (s1 :: others)) as (r & R1 & R2 & R3 & R4); auto.
          exists r. split; auto. split; auto. split; auto. split.
          - rewrite <- (total_rest_perm _ _ R4). unfold total_rest in *. simpl in *. lia.
          - intros x. rewrite <- Hel. apply all_elts_perm in R4. split; apply Permutation_in; auto.
            now symmetry. }
        rewrite Hrest. rewrite choice_cmp_ok; [|rewrite Hs0'; simpl; auto|auto].
        destruct (cons_compare (top s0') (top s1)) eqn:Ec; auto.
        exists (s0' :: s1 :: others). split; auto. split; [constructor; auto|]. split; [|split; auto].
        + constructor; auto. constructor; [unfold cle; congruence|].
          inversion Sv1 as [|? ? _ F2]. rewrite Forall_forall in *. intros u Hu.
          specialize (F2 u Hu).
          assert (elt (top u)). { destruct (Hv2 u Hu) as [(t1 & E) [F _]]. rewrite E in F. now inversion F. }
          assert (vp (top s0')) by (simpl; auto).
          apply (cle_trans _ (top s1)); auto. unfold cle; congruence. }
    destruct Hstep as (v' & -> & V1 & V2 & V3 & V4).
    assert (Hlb' : Forall (cle (top s0)) (all_elts v')).
    { rewrite Forall_forall in *. intros x Hx. apply Hlb. apply V4 in Hx.
      unfold all_elts. cbn [flat_map]. rewrite in_app_iff. rewrite E0.
      destruct Hx as [Hx|Hx]; auto. left. right. auto. }
    destruct (IH (top s0) v') as (r & -> & R1 & R2 & R3); auto. { right. split; auto. }
    assert (Hr : Forall (lt (top s0)) r).
    { destruct R3; auto. exfalso. destruct Et0 as [(_ & _ & _ & ? & _) _]. congruence. }
    assert (Hmem : forall x, In x (all_elts (s0 :: s1 :: others)) <-> x = top s0 \/ In x (all_elts v')).
    { intros x. rewrite V4. unfold all_elts at 1. cbn [flat_map]. rewrite in_app_iff, E0. split.
      - intros [[<-|Hx]|Hx]; auto. destruct (L5 x Hx); auto.
      - intros [->|[Hx|Hx]]; auto; left; [now left|right; auto]. }
    assert (Hdec : forall x, In x (all_elts v') -> x = top s0 \/ x <> top s0).
    { intros x Hx. pose proof (all_elts_ok _ V1) as Ha. 
      assert (elt x) by (eapply Forall_in; eauto).
      destruct (scan_eq_spec x (top s0)) as (b & _ & Hb); auto.
      destruct b; [left; tauto|right; intros E; apply Hb in E; discriminate]. }
    destruct e.
    + assert (Elast : top s0 = last) by now apply He. 
      exists r. split; auto. split; auto. split; [|right; now rewrite <- Elast].
      intros x. rewrite R2, Hmem, Elast. tauto.
    + assert (Hne : top s0 <> last) by (intros E; apply He in E; discriminate).
      exists (top s0 :: r). split; auto. split; [constructor; auto|].
      assert (Hlt : last = NEVERSEEN \/ lt last (top s0)).
      { destruct HL as [->|[Hel HF]]; auto. right.
        rewrite Forall_forall in HF.
        assert (cle last (top s0)) by (apply HF; apply Hmem; auto).
        apply cle_cases in H; auto. destruct H; auto. congruence. }
      split.
      * intros x. rewrite Hmem. cbn [In]. rewrite R2. split.
        -- intros [<-|[Hx Hn]]; [auto|]. split; auto. intros ->.
           destruct Hlt as [->|Hlt].
           ++ assert (Hxe : elt NEVERSEEN) by (eapply Forall_in; [apply (all_elts_ok _ V1)|exact Hx]).
              destruct Hxe as [(_ & _ & _ & Hxx & _) _]. congruence.
           ++ apply (lt_not_cle last (top s0)); auto. now apply (Forall_in (cle (top s0)) (all_elts v')).
        -- intros [[->|Hx] Hn]; auto. destruct (Hdec x Hx); [auto|right; auto].
      * destruct Hlt as [|Hlt]; [auto|right]. constructor; auto.
        apply Forall_forall. intros y Hy.
        assert (Hry : lt (top s0) y) by (now apply (Forall_in (lt (top s0)) r)).
        apply (lt_trans last (top s0) y); auto.
        apply R2 in Hy. destruct Hy as [Hy _]. apply elt_vp'.
        eapply Forall_in; [apply (all_elts_ok _ V1)|exact Hy].
Qed.

Lemma sort_scanners_spec v : Forall scanner_ok v ->
  exists r, sort_scanners a v = Some r /\ Forall scanner_ok r /\ scanners_sorted r /\ Permutation v r.
Proof.
  induction v as [|s v IH]; intros Hv.
  - exists []. repeat split; auto. constructor.
  - inversion Hv; subst. destruct IH as (r & E & R1 & R2 & R3); auto. cbn [sort_scanners]. rewrite E.
    destruct (insert_scanner_spec s r) as (r' & -> & Q1 & Q2 & Q3); auto.
    exists r'. repeat split; auto. rewrite <- Q3. now constructor.
Qed.

Lemma run_scanners_spec v : Forall scanner_ok v ->
  exists r, run_scanners a v = Some r /\ ssorted r /\ (forall x, In x r <-> In x (all_elts v)).
Proof.
  intros Hv. unfold run_scanners.
  destruct (sort_scanners_spec v Hv) as (w & -> & W1 & W2 & W3).
  destruct (scanner_loop_spec (S (total_rest w)) NEVERSEEN w) as (r & -> & R1 & R2 & _); auto.
  { now left. }
  exists r. split; auto. split; auto. intros x. rewrite R2.
  pose proof (all_elts_perm _ _ W3) as P.
  split.
  - intros [Hx _]. eapply Permutation_in; [symmetry; exact P|auto].
  - intros Hx. assert (Hx' : In x (all_elts w)) by (eapply Permutation_in; eauto). split; auto.
    pose proof (all_elts_ok _ W1) as Ha. intros ->.
    assert (Hxe : elt NEVERSEEN) by (eapply Forall_in; [exact Ha|exact Hx']).
    destruct Hxe as [(_ & _ & _ & Hxx & _) _]. congruence.
Qed.

Lemma make_scanners_spec l : Forall (fun v => v <> []) l ->
  exists r, make_scanners l = Some r /\ map rest r = l /\
    Forall (fun s => exists t, rest s = top s :: t) r.
Proof.
  induction l as [|v l IH]; intros H.
  - exists []. repeat split; auto.
  - inversion H; subst. destruct IH as (r & E & R1 & R2); auto.
    destruct v as [|x v]; [congruence|]. cbn [make_scanners]. rewrite E.
    eexists. split; [reflexivity|]. split; [simpl; now rewrite R1|].
    constructor; auto. exists v. reflexivity.
Qed.

Lemma merge_vectors_spec l : Forall (fun v => v <> [] /\ Forall elt v /\ StronglySorted cle v) l ->
  exists sc r, make_scanners l = Some sc /\ run_scanners a sc = Some r /\ ssorted r /\
    (forall x, In x r <-> exists v, In v l /\ In x v).
Proof.
  intros H.
  destruct (make_scanners_spec l) as (sc & E & R1 & R2).
  { eapply Forall_impl; [|exact H]. now intros v []. }
  assert (Hsc : Forall scanner_ok sc).
  { apply Forall_forall. intros s Hs. rewrite Forall_forall in R2, H. specialize (R2 s Hs).
    assert (Hin : In (rest s) l) by (rewrite <- R1; now apply in_map).
    destruct (H _ Hin) as (_ & F & S). split; auto. }
  destruct (run_scanners_spec sc Hsc) as (r & E2 & S & M).
  exists sc, r. repeat split; auto; rewrite M; unfold all_elts; rewrite in_flat_map.
  - intros (s & Hs & Hx). exists (rest s). split; auto. rewrite <- R1. now apply in_map.
  - intros (v & Hv & Hx). rewrite <- R1 in Hv. apply in_map_iff in Hv. destruct Hv as (s & <- & Hs). eauto.
Qed.
End Merge.

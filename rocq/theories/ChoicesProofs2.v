(** * Proofs about choice construction, accumulation and set operations. *)
From Coq Require Import Lia Permutation Sorting.Sorted.
From Verif Require Import ValueModel ValueProofs SortModel SortProofs ChoicesModel ChoicesProofs.

(** ** Elements and well-formedness *)

(** The elements of a simple value. *)
Definition selts (s : simple) : list val :=
  match s with SVal v => if emptyp v then [] else [v] | SChoice _ l => l end.
(** A canonical set value: the empty choice, a non-choice value, or a choice object of
    at least two elements in strictly ascending order. *)
Definition simple_ok (s : simple) : Prop :=
  match s with
  | SVal v => v = KEMPTY \/ elt_ok v
  | SChoice a l => Forall elt_ok l /\ ssorted l /\ 2 <= length l /\ Forall (aok a) l
  end.
Definition represents (s : simple) (P : val -> Prop) : Prop :=
  simple_ok s /\ (forall x, In x (selts s) <-> P x).
Definition two_distinct (l : list val) : Prop := exists x y, In x l /\ In y l /\ x <> y.

Lemma selts_elt v : elt_ok v -> selts (SVal v) = [v].
Proof. intros H. simpl. now rewrite elt_nonempty. Qed.
Lemma selts_ok s : simple_ok s -> Forall elt_ok (selts s) /\ ssorted (selts s).
Proof.
  destruct s as [v|a l]; simpl.
  - intros [->|H]; simpl; [repeat constructor|]. rewrite elt_nonempty by auto.
    split; constructor; auto; constructor.
  - tauto.
Qed.
Lemma two_distinct_len l r : two_distinct l -> (forall x, In x r <-> In x l) -> 2 <= length r.
Proof.
  intros (x & y & Hx & Hy & Hne) E. apply E in Hx, Hy.
  destruct r as [|a [|b r]]; simpl in *; try lia; try tauto.
  exfalso. destruct Hx as [<-|[]], Hy as [<-|[]]. congruence.
Qed.
Lemma ssorted_two l : Forall vp l -> ssorted l -> 2 <= length l -> two_distinct l.
Proof.
  destruct l as [|x [|y l]]; simpl; try lia. intros V S _. exists x, y. simpl.
  repeat split; auto. intros ->. inversion S as [|? ? ? F]; subst. inversion F; subst. inversion V; subst.
  eapply lt_irrefl; eauto.
Qed.

(** The value determines the elements and the elements determine the value (up to
    the atomic flag, which is only an optimisation hint). *)
Lemma represents_unique s t P : represents s P -> represents t P -> toval s = toval t.
Proof.
  intros [Hs Es] [Ht Et].
  assert (E : selts s = selts t).
  { destruct (selts_ok s Hs), (selts_ok t Ht). apply ssorted_unique; auto.
    intros x. rewrite Es, Et. tauto. }
  destruct s as [v|a l], t as [w|b m]; simpl in *.
  - destruct Hs as [->|Hv], Ht as [->|Hw]; auto.
    + rewrite (elt_nonempty w) in E by auto. discriminate.
    + rewrite (elt_nonempty v) in E by auto. discriminate.
    + rewrite (elt_nonempty v), (elt_nonempty w) in E by auto. congruence.
  - destruct Ht as (_ & _ & H & _). destruct (emptyp v); subst; simpl in *; lia.
  - destruct Hs as (_ & _ & H & _). destruct (emptyp w); subst; simpl in *; lia.
  - congruence.
Qed.

(** ** Building choices *)

Definition cfg_ok (cf : config) : Prop := 0 < block_size cf.

Lemma blocks_spec span n : 0 < span -> forall items, n * span <= length items ->
  (length items < n * span + span) ->
  concat (blocks n span items) = items /\ Forall (fun v => v <> []) (blocks n span items).
Proof.
  intros Hs. induction n as [|n IH]; intros items H1 H2.
  - simpl. destruct items; simpl; repeat constructor; try rewrite app_nil_r; auto. discriminate.
  - simpl in *. destruct (IH (skipn span items)) as [E F].
    + rewrite skipn_length. lia. + rewrite skipn_length. lia.
    + rewrite E. split; [apply firstn_skipn|]. constructor; auto.
      intros E0. apply (f_equal (@length val)) in E0. rewrite firstn_length in E0. simpl in E0. lia.
Qed.
Lemma sort_blocks_spec a l : Forall (fun v => v <> [] /\ Forall (elt a) v) l ->
  exists r, sort_blocks a l = Some r /\
    Forall (fun v => v <> [] /\ Forall (elt a) v /\ StronglySorted cle v) r /\
    Permutation (concat l) (concat r).
Proof.
  induction l as [|v l IH]; intros H.
  - exists []. repeat split; auto.
  - inversion H as [|? ? [Hne Hv] Hl]; subst. destruct IH as (r & E & R1 & R2); auto.
    cbn [sort_blocks].
    destruct (choice_sort_spec a v) as (v' & -> & P & S).
    { eapply Forall_impl; [|exact Hv]. intros x []; auto. }
    { eapply Forall_impl; [|exact Hv]. intros x []; auto. }
    rewrite E. exists (v' :: r). split; auto. split.
    + constructor; auto. repeat split; auto.
      * intros ->. apply Permutation_sym, Permutation_nil in P. auto.
      * eapply Permutation_Forall; eauto.
    + simpl. apply Permutation_app; auto.
Qed.
Lemma big_sort_spec cf a v : cfg_ok cf -> Forall elt_ok v -> Forall (aok a) v ->
  exists r, big_sort cf a v = Some r /\ ssorted r /\ (forall x, In x r <-> In x v).
Proof.
  intros Hcf Hv Ha. unfold big_sort, cfg_ok in *.
  destruct (block_size cf) as [|sp] eqn:Esp; [lia|]. rewrite <- Esp in *.
  set (n := Nat.div (length v) (block_size cf)).
  assert (Hn : n * block_size cf <= length v /\ length v < n * block_size cf + block_size cf).
  { unfold n. pose proof (Nat.div_mod (length v) (block_size cf)).
    pose proof (Nat.mod_upper_bound (length v) (block_size cf)). lia. }
  destruct (blocks_spec (block_size cf) n Hcf v) as [E F]; try tauto.
  destruct (sort_blocks_spec a (blocks n (block_size cf) v)) as (bs & -> & B1 & B2).
  { rewrite Forall_forall in *. intros b Hb. split; auto. apply Forall_forall. intros x Hx.
    assert (In x v) by (rewrite <- E; apply in_concat; eauto). split; auto. }
  destruct (merge_vectors_spec a bs B1) as (sc & r & -> & -> & S & M).
  exists r. split; auto. split; auto. intros x. rewrite M. rewrite E in B2. split.
  - intros (b & Hb & Hx). eapply Permutation_in; [symmetry; exact B2|]. apply in_concat. eauto.
  - intros Hx. eapply Permutation_in in Hx; [|exact B2]. apply in_concat in Hx.
    destruct Hx as (b & ? & ?). eauto.
Qed.

Definition flag_atomic (fl : cflags) (l : list val) : bool :=
  if f_atomic fl then true else if f_conses fl then false else forallb atomicp l.
Lemma flag_aok fl l : Forall (aok (f_atomic fl)) l -> Forall (aok (flag_atomic fl l)) l.
Proof.
  unfold flag_atomic. destruct (f_atomic fl); auto. destruct (f_conses fl); intros H.
  - apply Forall_forall. intros x _ E. discriminate.
  - apply Forall_forall. intros x Hx E. rewrite forallb_forall in E. auto.
Qed.

(** The three ways kno_init_choice is called on at least two elements. *)
Lemma init_choice_spec cf l fl :
  cfg_ok cf -> Forall elt_ok l -> Forall (aok (f_atomic fl)) l ->
  (f_sort fl = true \/
   f_sort fl = false /\ f_compress fl = true /\ StronglySorted cle l \/
   f_sort fl = false /\ f_compress fl = false /\ ssorted l) ->
  (f_realloc fl = true \/ two_distinct l) ->
  exists s, init_choice cf l fl = Some s /\ represents s (fun x => In x l) /\
            (2 <= length (selts s) -> choicep s = true).
Proof.
  intros Hcf Hl Ha Hm Hr.
  destruct l as [|x [|y l]].
  - exists (SVal KEMPTY). split; [simpl; destruct (f_realloc fl); reflexivity|]. split; [|simpl; lia].
    split; [left; reflexivity|]. intros x. simpl. tauto.
  - destruct Hr as [Hr|(u & v & [<-|[]] & [<-|[]] & H)]; [|congruence].
    inversion Hl; subst. exists (SVal x). simpl. rewrite Hr. split; auto. split.
    + split; [simpl; auto|]. intros z. rewrite selts_elt by auto. simpl. tauto.
    + destruct (emptyp x); simpl; lia.
  - set (data := x :: y :: l) in *.
    assert (Hd : init_choice cf data fl =
      match (if f_sort fl then
         if (0 <? big_threshold cf) && (big_threshold cf <? length data)
         then big_sort cf (f_atomic fl) data
         else do v <- choice_sort (flag_atomic fl data) data; compress (flag_atomic fl data) v
       else if f_compress fl then compress (flag_atomic fl data) data
       else Some data) with
      | Some newdata => match newdata with
        | [] => Some (SVal KEMPTY)
        | [x] => if f_realloc fl then Some (SVal x) else Some (SChoice (flag_atomic fl data) [x])
        | _ => Some (SChoice (flag_atomic fl data) newdata)
        end
      | None => None end) by reflexivity.
    rewrite Hd. clear Hd.
    set (at' := flag_atomic fl data).
    assert (Haa : Forall (aok at') data) by now apply flag_aok.
    assert (Hnew : exists r, (if f_sort fl then
         if (0 <? big_threshold cf) && (big_threshold cf <? length data)
         then big_sort cf (f_atomic fl) data
         else do v <- choice_sort at' data; compress at' v
       else if f_compress fl then compress at' data
       else Some data) = Some r /\ ssorted r /\ (forall z, In z r <-> In z data)).
    { assert (Hs : exists r, (if (0 <? big_threshold cf) && (big_threshold cf <? length data)
         then big_sort cf (f_atomic fl) data
         else do v <- choice_sort at' data; compress at' v) = Some r /\ ssorted r /\ (forall z, In z r <-> In z data)).
      { destruct ((0 <? big_threshold cf) && (big_threshold cf <? length data)).
        - apply big_sort_spec; auto.
        - destruct (choice_sort_spec at' data) as (v & -> & P & S); auto.
          destruct (compress_spec at' v) as (r & -> & S' & M).
          + eapply Permutation_Forall; eauto.
          + eapply Permutation_Forall; eauto.
          + auto.
          + exists r. repeat split; auto; rewrite M.
            * intros Hz. eapply Permutation_in; [symmetry|]; eauto.
            * intros Hz. eapply Permutation_in; eauto. }
      destruct Hm as [->|[(-> & -> & S)|(-> & -> & S)]]; [exact Hs| |].
      - apply compress_spec; auto.
      - exists data. repeat split; auto. }
    destruct Hnew as (r & -> & S & M).
    assert (Hr_ok : Forall elt_ok r).
    { apply Forall_forall. intros z Hz. apply M in Hz. eapply Forall_in; eauto. }
    assert (Hr_a : Forall (aok at') r).
    { apply Forall_forall. intros z Hz. apply M in Hz. eapply Forall_in; eauto. }
    destruct r as [|z [|z' r]].
    + exfalso. apply (M x). now left.
    + destruct Hr as [Hr|Hr].
      * rewrite Hr. inversion Hr_ok; subst. exists (SVal z). split; auto. split.
        -- split; [simpl; auto|]. intros w. rewrite selts_elt by auto. apply M.
        -- simpl. destruct (emptyp z); simpl; lia.
      * apply (two_distinct_len data [z]) in Hr; auto. simpl in Hr. lia.
    + exists (SChoice at' (z :: z' :: r)). split; auto. split; auto.
      split; [|intros; apply M]. split; auto. split; auto. split; auto. simpl; lia.
Qed.

Lemma merge_choices_spec cf l : cfg_ok cf ->
  Forall (fun c => Forall elt_ok (snd c) /\ ssorted (snd c) /\ snd c <> [] /\ Forall (aok (fst c)) (snd c)) l ->
  exists s, merge_choices cf l = Some s /\ represents s (fun x => exists c, In c l /\ In x (snd c)).
Proof.
  intros Hcf H. unfold merge_choices. set (a := forallb fst l).
  assert (Ha : forall c, In c l -> Forall (aok a) (snd c)).
  { intros c Hc. rewrite Forall_forall in H. destruct (H c Hc) as (_ & _ & _ & F).
    rewrite Forall_forall in *. intros x Hx E. apply F; auto. unfold a in E.
    rewrite forallb_forall in E. auto. }
  assert (Hv : Forall (fun v => v <> [] /\ Forall (elt a) v /\ StronglySorted cle v) (map snd l)).
  { apply Forall_forall. intros v Hv. apply in_map_iff in Hv. destruct Hv as (c & <- & Hc).
    specialize (Ha c Hc). rewrite Forall_forall in H. destruct (H c Hc) as (F & S & N & _).
    split; auto. split.
    - rewrite Forall_forall in *. intros x Hx. split; auto.
    - apply ssorted_cle; auto. }
  destruct (merge_vectors_spec a (map snd l) Hv) as (sc & r & -> & -> & S & M).
  assert (Hr : forall x, In x r <-> exists c, In c l /\ In x (snd c)).
  { intros x. rewrite M. split.
    - intros (v & Hin & Hx). apply in_map_iff in Hin. destruct Hin as (c & <- & Hc). eauto.
    - intros (c & Hc & Hx). exists (snd c). split; auto. now apply in_map. }
  destruct (init_choice_spec cf r {| f_sort := false; f_compress := false; f_realloc := true;
                        f_atomic := a; f_conses := negb a |}) as (s & -> & [R1 R2] & _); auto.
  - apply Forall_forall. intros x Hx. apply Hr in Hx. destruct Hx as (c & Hc & Hx).
    rewrite Forall_forall in H. destruct (H c Hc) as (F & _). eapply Forall_in; eauto.
  - simpl. apply Forall_forall. intros x Hx. apply Hr in Hx. destruct Hx as (c & Hc & Hx).
    eapply Forall_in; [exact (Ha c Hc)|]; auto.
  - exists s. split; auto. split; auto. intros x. rewrite R2. apply Hr.
Qed.

(** ** Accumulators *)

Definition pelts (p : pre) : list val := flat_map selts (data p).
Definition entry_ok (s : simple) : Prop := simple_ok s /\ is_empty s = false.
Record pre_ok (p : pre) : Prop := {
  po_data : Forall entry_ok (data p);
  po_cap : length (data p) <= cap p /\ 0 < cap p;
  po_nested : nested p = length (filter choicep (data p));
  po_size : psize p = length (pelts p);
  po_atomic : Forall (aok (patomic p)) (pelts p);
  po_sorted : muddled p = false -> nested p = 0 -> ssorted (pelts p);
  po_two : nested p = 0 -> forall x y r, data p = x :: y :: r -> x <> y;
  po_norm : forall s, pnorm p = Some s -> represents s (fun x => In x (pelts p))
}.

Lemma entry_sval v : entry_ok (SVal v) -> elt_ok v.
Proof. intros [[->|H] E]; auto. simpl in E. discriminate. Qed.
Lemma entry_selts s : entry_ok s -> selts s <> [].
Proof.
  intros [H E]. destruct s as [v|a l]; simpl in *.
  - rewrite E. discriminate.
  - destruct H as (_ & _ & H & _). destruct l; simpl in *; [lia|discriminate].
Qed.
Lemma represents_self s : simple_ok s -> represents s (fun x => In x (selts s)).
Proof. intros H. split; auto. tauto. Qed.
Lemma represents_ext s P Q : (forall x, P x <-> Q x) -> represents s P -> represents s Q.
Proof. intros E [H1 H2]. split; auto. intros x. rewrite H2. apply E. Qed.

Lemma no_choices_vals l : Forall entry_ok l -> length (filter choicep l) = 0 ->
  data_vals l = Some (flat_map selts l) /\ Forall elt_ok (flat_map selts l) /\
  length (flat_map selts l) = length l /\ map SVal (flat_map selts l) = l.
Proof.
  induction 1 as [|s l Hs _ IH]; intros H; [simpl; auto|].
  destruct s as [v|a m]; simpl in *; [|lia].
  destruct IH as (E & F & L & M); auto. unfold data_vals in *. rewrite E.
  pose proof (entry_sval v Hs) as Hv. rewrite elt_nonempty by auto. simpl.
  repeat split; auto; first [now rewrite L | now rewrite M].
Qed.
Lemma filter_length_le {A} (f : A -> bool) l : length (filter f l) <= length l.
Proof. induction l as [|a l IH]; simpl; auto. destruct (f a); simpl; lia. Qed.
Lemma all_choices l : length (filter choicep l) = length l ->
  exists cs, data_choices l = Some cs /\ (forall c, In c cs <-> In (SChoice (fst c) (snd c)) l).
Proof.
  induction l as [|s l IH]; intros H.
  - exists []. split; auto. simpl. tauto.
  - pose proof (filter_length_le choicep l).
    destruct s as [v|a m]; simpl in *; [lia|].
    destruct IH as (cs & E & M); [lia|]. unfold data_choices in *. rewrite E.
    exists ((a, m) :: cs). split; auto. intros [a' m']. simpl. rewrite M. simpl.
    split; intros [E'|]; auto; left; congruence.
Qed.
Lemma filter_entry f l : Forall entry_ok l -> Forall entry_ok (filter f l).
Proof. rewrite !Forall_forall. intros H x Hx. apply filter_In in Hx. now apply H. Qed.
Lemma filter_neg_none (l : list simple) : length (filter choicep (filter (fun s => negb (choicep s)) l)) = 0.
Proof. induction l as [|s l IH]; auto. simpl. destruct (choicep s) eqn:E; simpl; auto. now rewrite E. Qed.
Lemma filter_all (l : list simple) : length (filter choicep (filter choicep l)) = length (filter choicep l).
Proof. induction l as [|s l IH]; auto. simpl. destruct (choicep s) eqn:E; simpl; auto. rewrite E. simpl. auto. Qed.
Lemma flat_map_split l x : In x (flat_map selts l) <->
  In x (flat_map selts (filter (fun s => negb (choicep s)) l)) \/ In x (flat_map selts (filter choicep l)).
Proof.
  induction l as [|s l IH]; simpl; [tauto|]. rewrite in_app_iff, IH.
  destruct (choicep s); simpl; rewrite in_app_iff; tauto.
Qed.

Lemma append_data_spec l : forall limit, Forall entry_ok l -> limit = length (flat_map selts l) ->
  append_data limit l = Some (flat_map selts l).
Proof.
  induction l as [|s l IH]; intros limit Hl Hlim; [reflexivity|].
  inversion Hl as [|? ? Hs Hl']; subst. pose proof (entry_selts s Hs) as Hne.
  simpl. rewrite app_length.
  destruct (length (selts s) + length (flat_map selts l)) eqn:E.
  - destruct (selts s); simpl in *; [congruence|lia].
  - rewrite <- E. clear E. destruct s as [v|a m].
    + rewrite selts_elt by (now apply entry_sval). simpl. rewrite Nat.sub_0_r. now rewrite IH.
    + simpl selts in *. destruct (Nat.ltb_spec (length m + length (flat_map selts l)) (length m)); [lia|].
      replace (length m + length (flat_map selts l) - length m) with (length (flat_map selts l)) by lia.
      now rewrite IH.
Qed.

Lemma pelts_ok p : pre_ok p -> Forall elt_ok (pelts p).
Proof.
  intros H. apply Forall_forall. intros x Hx. unfold pelts in Hx. apply in_flat_map in Hx.
  destruct Hx as (s & Hs & Hx). pose proof (Forall_in _ _ _ (po_data p H) Hs) as [Hok _].
  destruct (selts_ok s Hok) as [F _]. eapply Forall_in; eauto.
Qed.
Lemma nested_two p : pre_ok p -> 0 < nested p -> two_distinct (pelts p).
Proof.
  intros H Hn. rewrite (po_nested p H) in Hn.
  destruct (filter choicep (data p)) as [|s l] eqn:E; [simpl in Hn; lia|].
  assert (Hs : In s (filter choicep (data p))) by (rewrite E; now left).
  apply filter_In in Hs. destruct Hs as [Hs Hc].
  pose proof (Forall_in _ _ _ (po_data p H) Hs) as [Hok _].
  destruct s as [v|a m]; [discriminate|]. destruct Hok as (F & S & L & _).
  destruct (ssorted_two m) as (x & y & Hx & Hy & Hne); auto.
  exists x, y. unfold pelts. rewrite !in_flat_map. repeat split; auto; exists (SChoice a m); auto.
Qed.
Lemma two_entries_two p : pre_ok p -> 2 <= length (data p) -> two_distinct (pelts p).
Proof.
  intros H L. destruct (Nat.eq_dec (nested p) 0) as [E|]; [|apply nested_two; auto; lia].
  pose proof (po_two p H E) as Ht.
  destruct (data p) as [|s [|t r]] eqn:Ed; simpl in L; try lia.
  specialize (Ht s t r eq_refl).
  pose proof (po_data p H) as Hd. rewrite Ed in Hd. inversion Hd as [|? ? Hs Hd1]; subst.
  inversion Hd1 as [|? ? Ht' _]; subst.
  pose proof (po_nested p H) as Hn. rewrite E, Ed in Hn. simpl in Hn.
  destruct s as [v|]; [|simpl in Hn; lia]. destruct t as [w|]; [|simpl in Hn; lia].
  apply entry_sval in Hs, Ht'.
  exists v, w. unfold pelts. rewrite Ed. cbn [flat_map]. rewrite !selts_elt by auto. simpl.
  repeat split; auto. congruence.
Qed.

Lemma represents_two s l : represents s (fun x => In x l) -> two_distinct l -> choicep s = true.
Proof.
  intros [H E] T. apply (two_distinct_len l (selts s)) in T; auto.
  destruct s as [v|]; auto. simpl in T. destruct (emptyp v); simpl in T; lia.
Qed.

Lemma cache_norm_ok p norm : pre_ok p -> represents norm (fun x => In x (pelts p)) -> pelts p <> [] ->
  pre_ok (cache_norm p norm) /\ (forall x, In x (pelts (cache_norm p norm)) <-> In x (pelts p)).
Proof.
  intros H [Hn E] Hne.
  assert (Hp : pelts (cache_norm p norm) = selts norm).
  { unfold pelts, cache_norm. simpl. apply app_nil_r. }
  assert (Hne' : is_empty norm = false).
  { destruct norm as [v|]; auto. simpl. destruct (emptyp v) eqn:Ev; auto.
    destruct (pelts p) as [|x l] eqn:Ep; [congruence|]. exfalso.
    assert (Hx : In x (selts (SVal v))) by (apply E; now left). simpl in Hx. rewrite Ev in Hx. auto. }
  split; [|intros x; rewrite Hp; apply E].
  destruct (selts_ok norm Hn) as [F S].
  constructor; rewrite ?Hp.
  - repeat constructor; auto.
  - simpl. pose proof (po_cap p H). lia.
  - simpl. destruct (choicep norm); reflexivity.
  - destruct norm as [v|a l]; simpl in *; auto. rewrite Hne'. reflexivity.
  - destruct norm as [v|a l]; simpl in *.
    + rewrite Hne'. repeat constructor. intros E'. exact E'.
    + tauto.
  - intros _ _. exact S.
  - simpl. intros _ x y r Hxy. discriminate.
  - simpl. intros s Es. injection Es as <-. now apply represents_self.
Qed.

Lemma normalize_spec cf p : cfg_ok cf -> pre_ok p ->
  exists s p', normalize cf p = Some (s, p') /\ represents s (fun x => In x (pelts p)) /\
    pre_ok p' /\ (forall x, In x (pelts p') <-> In x (pelts p)).
Proof.
  intros Hcf H. unfold normalize.
  destruct (pnorm p) as [s|] eqn:En.
  { exists s, p. split; auto. split; [now apply po_norm|]. split; auto. tauto. }
  destruct (data p) as [|d [|d2 l]] eqn:Ed.
  - assert (Hp : pelts p = []) by (unfold pelts; now rewrite Ed).
    eexists _, _. split; [reflexivity|]. rewrite Hp. split; [|split].
    + split; simpl; auto. tauto.
    + pose proof (po_cap p H). rewrite Ed in *.
      constructor; unfold pelts; simpl.
      * constructor.
      * simpl in *. lia.
      * rewrite (po_nested p H), Ed. reflexivity.
      * rewrite (po_size p H), Hp. reflexivity.
      * constructor.
      * intros _ _. constructor.
      * intros _ x y r E. discriminate.
      * intros s Es. injection Es as <-. split; simpl; auto; tauto.
    + simpl. tauto.
  - assert (Hp : pelts p = selts d) by (unfold pelts; rewrite Ed; simpl; apply app_nil_r).
    pose proof (po_data p H) as Hd. rewrite Ed in Hd. inversion Hd as [|? ? [Hs He] _]; subst.
    eexists _, _. split; [reflexivity|]. rewrite Hp. split; [now apply represents_self|]. split.
    + pose proof (po_cap p H). rewrite Ed in *.
      constructor; unfold pelts; simpl; rewrite ?app_nil_r.
      * repeat constructor; auto.
      * simpl in *. lia.
      * rewrite (po_nested p H), Ed. reflexivity.
      * rewrite (po_size p H), Hp. reflexivity.
      * rewrite <- Hp. apply (po_atomic p H).
      * intros E1 E2. rewrite <- Hp. now apply (po_sorted p H).
      * intros _ x y r E. discriminate.
      * intros s Es. injection Es as <-. now apply represents_self.
    + unfold pelts at 1. simpl. rewrite app_nil_r. tauto.
  - rewrite <- Ed.
    assert (Htwo : two_distinct (pelts p)) by (apply two_entries_two; auto; rewrite Ed; simpl; lia).
    assert (Hne : pelts p <> []).
    { intros E. rewrite E in Htwo. destruct Htwo as (x & _ & [] & _). }
    pose proof (pelts_ok p H) as Hpe. pose proof (po_atomic p H) as Hat.
    pose proof (po_data p H) as Hd. pose proof (po_nested p H) as Hn.
    assert (Hnorm : exists norm, (if nested p =? 0 then
           do vals <- data_vals (data p);
           init_choice cf vals {| f_sort := muddled p; f_compress := negb (muddled p); f_realloc := false;
                                  f_atomic := patomic p; f_conses := negb (patomic p) |}
         else if nested p =? length (data p) then
           do cs <- data_choices (data p); merge_choices cf cs
         else if small_threshold cf <? psize p then
           do vals <- data_vals (filter (fun s => negb (choicep s)) (data p));
           do cs <- data_choices (filter choicep (data p));
           let is_atomic := forallb atomicp vals in
           do s <- init_choice cf vals {| f_sort := true; f_compress := true; f_realloc := false;
                                          f_atomic := is_atomic; f_conses := negb is_atomic |};
           match s with
           | SChoice a v => merge_choices cf ((a, v) :: cs)
           | SVal _ => None
           end
         else prechoice_append cf p) = Some norm /\ represents norm (fun x => In x (pelts p))).
    { destruct (Nat.eqb_spec (nested p) 0) as [E0|E0].
      - destruct (no_choices_vals (data p)) as (-> & _ & _ & _); auto; [congruence|].
        fold (pelts p).
        destruct (init_choice_spec cf (pelts p) {| f_sort := muddled p; f_compress := negb (muddled p); f_realloc := false;
                    f_atomic := patomic p; f_conses := negb (patomic p) |}) as (s & -> & R & _); auto.
        + simpl. destruct (muddled p) eqn:Em; auto. right. left. repeat split; auto.
          apply ssorted_cle; auto. now apply (po_sorted p H).
        + eauto.
      - destruct (Nat.eqb_spec (nested p) (length (data p))) as [E1|E1].
        + destruct (all_choices (data p)) as (cs & -> & M); [congruence|].
          destruct (merge_choices_spec cf cs) as (s & -> & R); auto.
          { apply Forall_forall. intros c Hc. apply M in Hc.
            pose proof (Forall_in _ _ _ Hd Hc) as [(F & S & L & A) _].
            repeat split; auto. destruct (snd c); simpl in L; [lia|discriminate]. }
          exists s. split; auto. eapply represents_ext; [|exact R]. intros x. simpl.
          unfold pelts. rewrite in_flat_map. split.
          * intros (c & Hc & Hx). apply M in Hc. exists (SChoice (fst c) (snd c)). auto.
          * intros (t & Ht & Hx).
            assert (Hall : choicep t = true).
            { destruct (choicep t) eqn:Ec; auto. exfalso.
              assert (length (filter choicep (data p)) < length (data p)); [|lia].
              clear -Ht Ec. revert Ht. induction (data p) as [|u r IH]; simpl; [tauto|].
              pose proof (filter_length_le choicep r). intros [->|Ht].
              - rewrite Ec. lia. - specialize (IH Ht). destruct (choicep u); simpl; lia. }
            destruct t as [|a m]; [discriminate|]. exists (a, m). split; auto. now apply M.
        + destruct (small_threshold cf <? psize p).
          * set (sing := filter (fun s => negb (choicep s)) (data p)).
            set (chs := filter choicep (data p)).
            destruct (no_choices_vals sing) as (-> & Vok & Vlen & _);
              [now apply filter_entry|apply filter_neg_none|].
            destruct (all_choices chs) as (cs & -> & M); [apply filter_all|].
            set (vals := flat_map selts sing) in *.
            assert (Hvals : vals <> []).
            { intros Ev. assert (Hl : length sing = 0) by (rewrite <- Vlen, Ev; reflexivity).
              assert (length sing + length chs = length (data p)).
              { unfold sing, chs. clear. induction (data p) as [|s r IH]; simpl; auto.
                destruct (choicep s); simpl; lia. }
              unfold chs in H0. lia. }
            cbn zeta.
            set (ia := forallb atomicp vals).
            assert (Hia : Forall (aok ia) vals).
            { apply Forall_forall. intros x Hx E. unfold ia in E. rewrite forallb_forall in E. auto. }
            (* the choice of the singletons, possibly of one element *)
            assert (Hs : exists a v, init_choice cf vals {| f_sort := true; f_compress := true; f_realloc := false;
                      f_atomic := ia; f_conses := negb ia |} = Some (SChoice a v) /\
                      Forall elt_ok v /\ ssorted v /\ v <> [] /\ Forall (aok a) v /\
                      (forall x, In x v <-> In x vals)).
            { destruct vals as [|x1 [|x2 vals']]; [congruence| |].
              - exists ia, [x1]. split; [|repeat split; auto; try constructor; try discriminate; auto; constructor].
                simpl. unfold ia. simpl. destruct (atomicp x1); reflexivity.
              - set (vv := x1 :: x2 :: vals') in *.
                unfold init_choice. fold vv.
                change (match vv with [] => _ | [x] => _ | _ => ?e end) with e.
                cbn [f_sort f_atomic f_conses f_realloc].
                assert (Hsrt : exists r, (if (0 <? big_threshold cf) && (big_threshold cf <? length vv)
                    then big_sort cf ia vv
                    else do v <- choice_sort (if ia then true else if negb ia then false else forallb atomicp vv) vv;
                         compress (if ia then true else if negb ia then false else forallb atomicp vv) v) = Some r
                     /\ ssorted r /\ (forall z, In z r <-> In z vv)).
                { destruct ((0 <? big_threshold cf) && (big_threshold cf <? length vv)).
                  - apply big_sort_spec; auto.
                  - replace (if ia then true else if negb ia then false else forallb atomicp vv) with ia
                      by (destruct ia; reflexivity).
                    destruct (choice_sort_spec ia vv) as (v & -> & P & S); auto.
                    destruct (compress_spec ia v) as (r & -> & S' & M').
                    + eapply Permutation_Forall; eauto.
                    + eapply Permutation_Forall; eauto.
                    + auto.
                    + exists r. repeat split; auto; rewrite M'.
                      * intros Hz. eapply Permutation_in; [symmetry|]; eauto.
                      * intros Hz. eapply Permutation_in; eauto. }
                destruct Hsrt as (r & -> & S & M').
                replace (if ia then true else if negb ia then false else forallb atomicp vv) with ia
                  by (destruct ia; reflexivity).
                assert (Hrne : r <> []). { intros ->. apply (M' x1). now left. }
                exists ia, r. split.
                + destruct r as [|z [|z' r]]; auto. congruence.
                + split; [apply Forall_forall; intros z Hz; apply M' in Hz; eapply Forall_in; [exact Vok|auto]|].
                  repeat split; auto; try (apply M').
                  apply Forall_forall; intros z Hz; apply M' in Hz; eapply Forall_in; [exact Hia|auto]. }
            destruct Hs as (a & v & -> & V1 & V2 & V3 & V4 & V5).
            destruct (merge_choices_spec cf ((a, v) :: cs)) as (s & -> & R); auto.
            { constructor; [simpl; auto|]. apply Forall_forall. intros c Hc. apply M in Hc.
              unfold chs in Hc. apply filter_In in Hc. destruct Hc as [Hc _].
              pose proof (Forall_in _ _ _ Hd Hc) as [(F & S & L & A) _].
              repeat split; auto. destruct (snd c); simpl in L; [lia|discriminate]. }
            exists s. split; auto. eapply represents_ext; [|exact R]. intros x. simpl.
            unfold pelts. rewrite flat_map_split. fold sing chs. fold vals. split.
            -- intros (c & [<-|Hc] & Hx); [left; now apply V5|right].
               apply M in Hc. apply in_flat_map. exists (SChoice (fst c) (snd c)). auto.
            -- intros [Hx|Hx].
               ++ exists (a, v). split; auto. now apply V5.
               ++ apply in_flat_map in Hx. destruct Hx as (t & Ht & Hx).
                  destruct t as [w|b m].
                  { unfold chs in Ht. apply filter_In in Ht. destruct Ht; discriminate. }
                  exists (b, m). split; auto. right. now apply M.
          * unfold prechoice_append.
            rewrite (append_data_spec (data p) (psize p)); auto; [|apply (po_size p H)].
            fold (pelts p).
            destruct Htwo as (u & w & Hu & Hw & Huw).
            destruct (pelts p) as [|x [|y r]] eqn:Ep; [destruct Hu| |].
            { exfalso. destruct Hu as [<-|[]], Hw as [<-|[]]. congruence. }
            destruct (init_choice_spec cf (x :: y :: r) {| f_sort := true; f_compress := false; f_realloc := false;
                    f_atomic := patomic p; f_conses := negb (patomic p) |}) as (s & -> & R & _); auto.
            { right. exists u, w. auto. }
            eauto. }
    cbn zeta in Hnorm. destruct Hnorm as (norm & -> & R).
    destruct (cache_norm_ok p norm H R Hne) as [P1 P2].
    exists norm, (cache_norm p norm). auto.
Qed.

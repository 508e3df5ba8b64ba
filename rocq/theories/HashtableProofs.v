(** * Proofs about hashtables. *)
From Coq Require Import Lia Permutation Sorting.Sorted List.
From Verif Require Import ValueModel ValueProofs SortModel SortProofs ChoicesModel SlotmapModel
  ChoicesProofs ChoicesProofs2 ChoicesProofs3 TableProofs SlotmapProofs HashtableModel.
Import ListNotations.

Notation vec := (list (list keyval)).

(** ** Lists of buckets *)
Lemma nth_split_gen {A} (l : list A) i e : nth_error l i = Some e -> l = firstn i l ++ e :: skipn (S i) l.
Proof.
  revert i. induction l as [|a l IH]; intros [|i] H; try discriminate; cbn in H; [now injection H as ->|].
  cbn [firstn skipn app]. f_equal. now apply IH.
Qed.
Lemma NoDup_app_remove_l {A} (l r : list A) : NoDup (l ++ r) -> NoDup r.
Proof. induction l; cbn; auto. inversion 1; auto. Qed.
Lemma NoDup_app_remove_r {A} (l r : list A) : NoDup (l ++ r) -> NoDup l.
Proof.
  induction l as [|a l IH]; cbn; [constructor|]. inversion 1; subst. constructor; auto.
  intros Hi. apply H2, in_or_app. now left.
Qed.
Lemma concat_split {A} (bs : list (list A)) i b : nth_error bs i = Some b ->
  exists r, Permutation (concat bs) (b ++ r) /\
    (forall b', Permutation (concat (set_at i b' bs)) (b' ++ r)).
Proof.
  intros E. exists (concat (firstn i bs) ++ concat (skipn (S i) bs)).
  assert (G : forall x, Permutation (concat (firstn i bs) ++ x ++ concat (skipn (S i) bs))
                          (x ++ concat (firstn i bs) ++ concat (skipn (S i) bs))).
  { intros x. rewrite !app_assoc. apply Permutation_app_tail, Permutation_app_comm. }
  split.
  - rewrite (nth_split_gen _ _ _ E) at 1. rewrite concat_app. cbn [concat]. apply G.
  - intros b'. unfold set_at. rewrite concat_app. cbn [concat]. apply G.
Qed.
Lemma keys_app (l r : list keyval) : keys_of (l ++ r) = keys_of l ++ keys_of r.
Proof. apply map_app. Qed.
Lemma upd_app (b r : list keyval) k ov b' : NoDup (keys_of (b ++ r)) -> ~ In k (keys_of r) ->
  upd b k ov b' -> upd (b ++ r) k ov (b' ++ r).
Proof.
  intros N Hk (U1 & U2 & U3). rewrite keys_app in N. split; [|split].
  - rewrite keys_app.
    assert (D : forall x, In x (keys_of b') -> ~ In x (keys_of r)).
    { intros x Hx Hr. destruct (val_dec x k) as [->|Hn]; [tauto|].
      apply (upd_keys b k ov b') in Hx; [|split; auto|auto].
      clear -N Hx Hr. induction (keys_of b) as [|y l IH]; [destruct Hx|]. cbn in N. inversion N; subst.
      destruct Hx as [->|Hx]; [|now apply IH]. apply H1. apply in_or_app. now right. }
    apply NoDup_app_remove_l in N. clear -U1 N D. induction (keys_of b') as [|y l IH]; auto.
    cbn. inversion U1; subst. constructor.
    + rewrite in_app_iff. intros [|]; [tauto|]. apply (D y); [now left|auto].
    + apply IH; auto. intros x Hx. apply D. now right.
  - intros k' v Hn. rewrite !in_app_iff. now rewrite (U2 _ _ Hn).
  - intros v. rewrite in_app_iff. rewrite U3. split; [|tauto]. intros [|Hr]; auto. exfalso. apply Hk. eapply keys_in; eauto.
Qed.

Section Vec.
Variable hc : hcfg.
(** Every entry is in the bucket of its key; buckets are sorted. *)
Record bok (bs : vec) : Prop := {
  b_place : forall i b e, nth_error bs i = Some b -> In e b -> offset hc (fst e) bs = i;
  b_sorted : Forall (fun b => ssorted (keys_of b)) bs;
}.
Lemma offset_lt k (bs : vec) : bs <> [] -> offset hc k bs < length bs.
Proof.
  intros H. unfold offset. assert (N.of_nat (length bs) <> 0%N) by (destruct bs; [tauto|simpl; lia]).
  pose proof (N.mod_lt (hash hc k) _ H0). lia.
Qed.
Lemma offset_len k (bs bs' : vec) : length bs = length bs' -> offset hc k bs = offset hc k bs'.
Proof. unfold offset. now intros ->. Qed.
Lemma in_bucket bs e : bok bs -> In e (concat bs) ->
  exists b, nth_error bs (offset hc (fst e) bs) = Some b /\ In e b.
Proof.
  intros [P _] H. apply in_concat in H as (b & Hb & He). apply In_nth_error in Hb as [i Ei].
  exists b. split; auto. now rewrite (P _ _ _ Ei He).
Qed.
Lemma bucket_get_spec k b : Forall vp (keys_of b) -> ssorted (keys_of b) -> vp k ->
  (exists i v, bucket_get k b = Some (Some i) /\ nth_error b i = Some (k, v)) \/
  (bucket_get k b = Some None /\ ~ In k (keys_of b)).
Proof.
  intros F S Vk. destruct b as [|[k1 v1] [|e2 b]].
  - right. cbn. auto.
  - inversion F; subst. cbn [bucket_get fst]. destruct (lequal k k1) eqn:E.
    + left. apply leq_eq in E; auto. subst. exists 0, v1. auto.
    + right. split; auto. cbn. intros [->|[]]. rewrite (proj2 (leq_eq k k Vk Vk)) in E; congruence.
  - apply sortvec_get_spec; auto.
Qed.
Lemma bucket_vp (bs : vec) i b : Forall vp (keys_of (concat bs)) -> nth_error bs i = Some b -> Forall vp (keys_of b).
Proof.
  intros F E. apply Forall_forall. intros x Hx. apply (Forall_in _ _ _ F). apply in_keys in Hx as [v Hx].
  apply (keys_in _ _ v). apply in_concat. exists b. split; auto. eapply nth_error_In; eauto.
Qed.
Lemma hashvec_get_spec k bs : bok bs -> bs <> [] -> Forall vp (keys_of (concat bs)) -> vp k ->
  (exists i j b v, hashvec_get hc k bs = Some (Some (i, j)) /\ nth_error bs i = Some b /\ nth_error b j = Some (k, v)) \/
  (hashvec_get hc k bs = Some None /\ ~ In k (keys_of (concat bs))).
Proof.
  intros B Hne F Vk. unfold hashvec_get. pose proof (offset_lt k bs Hne) as L.
  destruct (nth_error bs (offset hc k bs)) as [b|] eqn:E; [|apply nth_error_None in E; lia].
  assert (Sb : ssorted (keys_of b)) by (apply (Forall_in _ _ _ (b_sorted _ B)); eapply nth_error_In; eauto).
  destruct (bucket_get_spec k b (bucket_vp _ _ _ F E) Sb Vk) as [(j & v & -> & En)|(-> & Hn)].
  - left. exists (offset hc k bs), j, b, v. auto.
  - right. split; auto. intros Hi. apply in_keys in Hi as [v Hi]. apply in_bucket in Hi as (b' & E' & Hi'); auto.
    cbn [fst] in E'. rewrite E in E'. injection E' as <-. apply Hn. eapply keys_in; eauto.
Qed.

Lemma bcmp_cmp k x : vp k -> vp x -> bcmp k x = cons_compare k x.
Proof.
  intros Vk Vx. unfold bcmp. destruct (lequal k x) eqn:E.
  - apply leq_eq in E; auto. subst. symmetry. now apply cmp_eq.
  - destruct (cons_compare k x) eqn:C; auto. apply cmp_eq in C; auto. subst.
    rewrite (proj2 (leq_eq x x Vx Vx)) in E; congruence.
Qed.
Lemma bucket_insert_spec k b : Forall vp (keys_of b) -> ssorted (keys_of b) -> vp k -> b <> [] ->
  (exists i v, bucket_insert k b = Some (i, b) /\ nth_error b i = Some (k, v)) \/
  (~ In k (keys_of b) /\ exists i, bucket_insert k b = Some (i, insert_at i (k, EMPTYV) b) /\ i <= length b /\
     ssorted (keys_of (insert_at i (k, EMPTYV) b))).
Proof.
  intros F S Vk Hne. unfold bucket_insert.
  destruct (ranks_exist _ k F S Vk) as (p & q & Rk & He & Hn).
  assert (Rk' := Rk). apply (ranks_ext _ (bcmp k)) in Rk'; [|intros; symmetry; apply bcmp_cmp; auto; eapply Forall_in; eauto].
  assert (Hl : length (keys_of b) = length b) by apply keys_len. assert (Hq := Rk). destruct Hq as (Q1 & Q2 & _).
  assert (0 < length b) by (destruct b; [tauto|simpl; lia]).
  destruct (bs_loop_spec _ _ p q Rk' (Datatypes.S (length b)) 0 (Z.of_nat (length b) - 1) (Z.quot (Z.of_nat (length b) - 1) 2) 2) as
    [(E & b' & ->)|(E & m' & d' & -> & D)]; try lia.
  - left. specialize (He E). rewrite Nat2Z.id. cbn [Z.eqb]. apply nth_keys in He as [v En]. eauto.
  - right. split; [now apply Hn|]. replace (d' =? 0)%Z with false by (symmetry; apply Z.eqb_neq; lia).
    assert (Hi : Z.to_nat (m' + (if (m' <? Z.of_nat p)%Z then 1 else 0))%Z = p).
    { destruct (Z.ltb_spec m' (Z.of_nat p)); lia. }
    rewrite Hi. exists p. split; [reflexivity|]. split; [lia|]. rewrite keys_insert. subst q. now apply ranks_insert.
Qed.
Lemma set_len_n {A} i (x : A) l : i < length l -> length (set_at i x l) = length l.
Proof.
  intros H. destruct (nth_error l i) eqn:E; [now apply (set_len_at _ _ a)|apply nth_error_None in E; lia].
Qed.
Lemma nth_set_eq {A} i (x : A) l : i < length l -> nth_error (set_at i x l) i = Some x.
Proof.
  intros H. unfold set_at. rewrite nth_error_app2; rewrite firstn_length_le by lia; [|lia].
  now rewrite Nat.sub_diag.
Qed.
Lemma nth_set_neq {A} i j (x : A) l : i < length l -> j <> i -> nth_error (set_at i x l) j = nth_error l j.
Proof.
  revert i j. induction l as [|a l IH]; intros i j H Hn; [simpl in H; lia|].
  destruct i, j; try reflexivity; [lia|]. cbn. apply IH; simpl in H; lia.
Qed.
Lemma set_set {A} i (x y : A) l : i < length l -> set_at i x (set_at i y l) = set_at i x l.
Proof.
  revert i. induction l as [|a l IH]; intros i H; [simpl in H; lia|]. destruct i; [reflexivity|].
  change (a :: set_at i x (set_at i y l) = a :: set_at i x l). f_equal. apply IH. simpl in H. lia.
Qed.
Lemma set_in {A} i (x : A) l y : In y (set_at i x l) -> y = x \/ In y l.
Proof.
  unfold set_at. rewrite in_app_iff. cbn [In]. intros [H|[<-|H]]; auto; right.
  - rewrite <- (firstn_skipn i l). apply in_or_app. now left.
  - rewrite <- (firstn_skipn (S i) l). apply in_or_app. now right.
Qed.

(** Replacing the bucket of [k] by one whose keys are among its own and [k]. *)
Lemma bok_set bs k b b' : bok bs -> nth_error bs (offset hc k bs) = Some b ->
  (forall x, In x (keys_of b') -> x = k \/ In x (keys_of b)) -> ssorted (keys_of b') ->
  bok (set_at (offset hc k bs) b' bs).
Proof.
  intros [P S] E Hk Sb. set (o := offset hc k bs) in *.
  assert (L : o < length bs) by (apply nth_error_Some; congruence).
  assert (Ln : length (set_at o b' bs) = length bs) by now apply set_len_n.
  constructor.
  - intros i c e Ei He. rewrite (offset_len _ _ bs) by auto. destruct (Nat.eq_dec i o) as [->|Hn].
    + rewrite nth_set_eq in Ei by auto. injection Ei as <-. destruct e as [x v]. cbn [fst].
      destruct (Hk x (keys_in _ _ _ He)) as [->|Hx]; auto. apply in_keys in Hx as [w Hx]. now apply (P _ _ _ E) in Hx.
    + rewrite nth_set_neq in Ei by auto. eapply P; eauto.
  - apply Forall_forall. intros c Hc. apply set_in in Hc as [->|Hc]; auto. apply (Forall_in _ _ _ S Hc).
Qed.
Lemma other_bucket bs k b r : bok bs -> nth_error bs (offset hc k bs) = Some b ->
  NoDup (keys_of (concat bs)) -> Permutation (concat bs) (b ++ r) -> In k (keys_of (concat bs)) -> In k (keys_of b).
Proof.
  intros B E N P Hk. apply in_keys in Hk as [v Hk]. apply in_bucket in Hk as (b' & E' & Hi); auto.
  cbn [fst] in E'. rewrite E in E'. injection E' as <-. eapply keys_in; eauto.
Qed.
Lemma rest_free bs k b r : bok bs -> nth_error bs (offset hc k bs) = Some b ->
  NoDup (keys_of (concat bs)) -> Permutation (concat bs) (b ++ r) -> ~ In k (keys_of r).
Proof.
  intros B E N P Hr.
  assert (Hc : In k (keys_of (concat bs))).
  { eapply Permutation_in; [symmetry; apply (Permutation_map fst P)|]. fold (keys_of (b ++ r)). rewrite keys_app. apply in_or_app. now right. }
  pose proof (other_bucket _ _ _ _ B E N P Hc) as Hb.
  assert (N' : NoDup (keys_of (b ++ r))) by (eapply Permutation_NoDup; [apply (Permutation_map fst P)|exact N]).
  rewrite keys_app in N'. clear -N' Hb Hr. induction (keys_of b) as [|y l IH]; [destruct Hb|].
  cbn in N'. inversion N'; subst. destruct Hb as [->|Hb]; [|now apply IH]. apply H1, in_or_app. now right.
Qed.
Lemma vec_upd bs k b b' ov : bok bs -> nth_error bs (offset hc k bs) = Some b ->
  NoDup (keys_of (concat bs)) -> upd b k ov b' ->
  upd (concat bs) k ov (concat (set_at (offset hc k bs) b' bs)).
Proof.
  intros B E N U. destruct (concat_split _ _ _ E) as (r & P & Q).
  apply (upd_perm (b ++ r) _ k ov (b' ++ r)); [now symmetry|symmetry; apply Q|].
  apply upd_app; auto; [eapply Permutation_NoDup; [apply (Permutation_map fst P)|exact N]|].
  eapply rest_free; eauto.
Qed.
Lemma vec_len (bs : vec) i b b' : nth_error bs i = Some b ->
  length (concat (set_at i b' bs)) + length b = length (concat bs) + length b'.
Proof.
  intros E. destruct (concat_split _ _ _ E) as (r & P & Q).
  rewrite (Permutation_length P), (Permutation_length (Q b')), !app_length. lia.
Qed.
Lemma bucket_nodup (bs : vec) i b : NoDup (keys_of (concat bs)) -> nth_error bs i = Some b -> NoDup (keys_of b).
Proof.
  intros N E. destruct (concat_split _ _ _ E) as (r & P & _).
  assert (N' : NoDup (keys_of (b ++ r))) by (eapply Permutation_NoDup; [apply (Permutation_map fst P)|exact N]).
  rewrite keys_app in N'. now apply NoDup_app_remove_r in N'.
Qed.

(** Insertion finds the entry or puts in a new one with the empty value. *)
Lemma hashvec_insert_spec k bs : bok bs -> bs <> [] -> Forall vp (keys_of (concat bs)) -> vp k ->
  let o := offset hc k bs in
  (exists j b v, hashvec_insert hc k bs = Some (o, j, bs, 0%N) /\ nth_error bs o = Some b /\ nth_error b j = Some (k, v)) \/
  (~ In k (keys_of (concat bs)) /\
   exists j b, hashvec_insert hc k bs = Some (o, j, set_at o (insert_at j (k, EMPTYV) b) bs, 1%N) /\
     nth_error bs o = Some b /\ j <= length b /\ ssorted (keys_of (insert_at j (k, EMPTYV) b))).
Proof.
  intros B Hne F Vk o. unfold hashvec_insert. fold o. pose proof (offset_lt k bs Hne) as L. fold o in L.
  destruct (nth_error bs o) as [b|] eqn:E; [|apply nth_error_None in E; lia].
  assert (Sb : ssorted (keys_of b)) by (apply (Forall_in _ _ _ (b_sorted _ B)); eapply nth_error_In; eauto).
  pose proof (bucket_vp _ _ _ F E) as Fb.
  assert (Abs : ~ In k (keys_of b) -> ~ In k (keys_of (concat bs))).
  { intros Hn Hi. apply in_keys in Hi as [v Hi]. apply in_bucket in Hi as (b' & E' & Hi'); auto.
    cbn [fst] in E'. fold o in E'. rewrite E in E'. injection E' as <-. apply Hn. eapply keys_in; eauto. }
  destruct b as [|[k1 v1] [|e2 b]].
  - right. split; [apply Abs; auto|]. exists 0, []. split; auto. split; auto. split; auto. repeat constructor.
  - cbn [fst]. inversion Fb; subst. destruct (lequal k k1) eqn:Q.
    + left. apply leq_eq in Q; auto. subst. exists 0, [(k1, v1)], v1. auto.
    + destruct (bucket_insert_spec k [(k1, v1)] Fb Sb Vk) as [(i & v & _ & En)|(Hn & i & -> & Hi & Hs)]; [discriminate| |].
      * destruct i as [|[|i]]; try discriminate. cbn in En. injection En as -> ->.
        rewrite (proj2 (leq_eq k k Vk Vk)) in Q; congruence.
      * right. split; auto. exists i, [(k1, v1)]. auto.
  - set (bb := (k1, v1) :: e2 :: b) in *.
    destruct (bucket_insert_spec k bb Fb Sb Vk) as [(i & v & -> & En)|(Hn & i & -> & Hi & Hs)]; [discriminate| |].
    + left. exists i, bb, v. rewrite Nat.ltb_irrefl. split; auto. do 2 f_equal.
      assert (Hs : set_at o bb bs = bs) by (unfold set_at; now rewrite <- (nth_split_gen _ _ _ E)). now rewrite Hs.
    + right. split; auto. exists i, bb.
      assert (Ln : length (insert_at i (k, EMPTYV) bb) = Datatypes.S (length bb)) by apply (Permutation_length (insert_perm i (k, EMPTYV) bb)).
      replace (length bb <? length (insert_at i (k, EMPTYV) bb)) with true by (symmetry; apply Nat.ltb_lt; lia). auto.
Qed.

(** Insert and then write a value computed from the current one. *)
Definition modify (bs : vec) (k : val) (f : lv -> option lv) : option (vec * N) :=
  do r <- hashvec_insert hc k bs;
  let '(off, i, bs1, inc) := (r : nat * nat * vec * N) in
  do cur <- value_in bs1 off i; do new <- f cur;
  do bs2 <- write_in bs1 off i new; Some (bs2, inc).
Lemma modify_spec bs k f : bok bs -> bs <> [] -> Forall vp (keys_of (concat bs)) -> NoDup (keys_of (concat bs)) -> vp k ->
  (forall cur, In (k, cur) (concat bs) \/ (~ In k (keys_of (concat bs)) /\ cur = EMPTYV) -> exists new, f cur = Some new) ->
  exists bs' inc cur new, modify bs k f = Some (bs', inc) /\ f cur = Some new /\
    (In (k, cur) (concat bs) /\ inc = 0%N \/ ~ In k (keys_of (concat bs)) /\ cur = EMPTYV /\ inc = 1%N) /\
    upd (concat bs) k (Some new) (concat bs') /\ bok bs' /\ length bs' = length bs /\
    N.of_nat (length (concat bs')) = (N.of_nat (length (concat bs)) + inc)%N.
Proof.
  intros B Hne F N Vk Hf. unfold modify.
  destruct (hashvec_insert_spec k bs B Hne F Vk) as [(j & b & v & -> & E & En)|(Hn & j & b & -> & E & Hj & Hs)].
  - assert (Hin : In (k, v) (concat bs)).
    { apply in_concat. exists b. split; eapply nth_error_In; eauto. }
    destruct (Hf v (or_introl Hin)) as [new Ef]. unfold value_in, write_in. rewrite E.
    unfold value_at. rewrite En. cbn [snd]. rewrite Ef, (write_value_eq _ _ _ _ _ En).
    eexists _, _, v, new. split; [reflexivity|]. split; auto. split; [left; auto|].
    assert (Nb := bucket_nodup _ _ _ N E).
    split; [eapply vec_upd; eauto; eapply set_upd; eauto|]. split.
    { eapply bok_set; eauto; rewrite (keys_set _ _ _ _ _ En); auto.
      apply (Forall_in _ _ _ (b_sorted _ B)); eapply nth_error_In; eauto. }
    split; [apply set_len_n; apply nth_error_Some; congruence|].
    pose proof (vec_len bs _ b (set_at j (k, new) b) E) as Q. rewrite (set_len_at _ _ _ _ En) in Q. lia.
  - destruct (Hf EMPTYV (or_intror (conj Hn eq_refl))) as [new Ef].
    assert (L : offset hc k bs < length bs) by (apply nth_error_Some; congruence).
    unfold value_in, write_in. rewrite nth_set_eq by auto. unfold value_at. rewrite nth_insert by auto. cbn [snd]. rewrite Ef.
    assert (Ei : nth_error (insert_at j (k, EMPTYV) b) j = Some (k, EMPTYV)) by now apply nth_insert.
    rewrite (write_value_eq _ _ _ _ _ Ei), set_set, set_insert by auto.
    eexists _, _, EMPTYV, new. split; [reflexivity|]. split; auto. split; [right; auto|].
    assert (Nb := bucket_nodup _ _ _ N E).
    assert (Hk : ~ In k (keys_of b)).
    { intros Hk. apply Hn. apply in_keys in Hk as [w Hk]. apply (keys_in _ _ w), in_concat. exists b. split; auto. eapply nth_error_In; eauto. }
    split; [eapply vec_upd; eauto; now apply insert_upd|]. split.
    { eapply bok_set; eauto.
      - intros x. rewrite keys_insert. intros Hx. apply (Permutation_in _ (insert_perm _ _ _)) in Hx. destruct Hx as [->|]; auto.
      - rewrite keys_insert in Hs |- *. exact Hs. }
    split; [now apply set_len_n|].
    pose proof (vec_len bs _ b (insert_at j (k, new) b) E) as Q.
    rewrite (Permutation_length (insert_perm j (k, new) b)) in Q. cbn [length] in Q. lia.
Qed.

(** Resizing keeps the entries. *)
Lemma concat_new n : concat (new_buckets n) = [].
Proof. unfold new_buckets. induction (N.to_nat n); auto. Qed.
Lemma bok_new n : bok (new_buckets n).
Proof.
  constructor.
  - intros i b e E He. apply nth_error_In, repeat_spec in E. subst. destruct He.
  - apply Forall_forall. intros b Hb. apply repeat_spec in Hb. subst. constructor.
Qed.
Lemma upd_new_perm (l : list keyval) k v l' : NoDup (keys_of l) -> ~ In k (keys_of l) ->
  upd l k (Some v) l' -> Permutation l' ((k, v) :: l).
Proof.
  intros N Hn (U1 & U2 & U3). apply NoDup_Permutation.
  - now apply NoDup_map_inv in U1.
  - constructor; [|now apply NoDup_map_inv in N]. intros Hi. apply Hn. eapply keys_in; eauto.
  - intros [x w]. cbn [In]. destruct (val_dec x k) as [->|Hx].
    + rewrite U3. split; [intros [= ->]; auto|]. intros [[= ->]|Hi]; auto. exfalso. apply Hn. eapply keys_in; eauto.
    + rewrite (U2 _ _ Hx). split; auto. intros [[= -> _]|]; auto. tauto.
Qed.
Lemma put_entry_modify bs k v : put_entry hc bs (k, v) = (do r <- modify bs k (fun _ => Some v); Some (fst (r : vec * N))).
Proof.
  unfold put_entry, modify. cbn [fst snd]. destruct (hashvec_insert hc k bs) as [[[[o i] b] inc]|]; auto.
  unfold write_in, value_in, write_value, value_at, key_at. destruct (nth_error b o) as [c|]; auto.
  now destruct (nth_error c i).
Qed.
Lemma put_all_spec es : Forall vp (keys_of es) -> NoDup (keys_of es) -> forall bs, bok bs -> bs <> [] ->
  Forall vp (keys_of (concat bs)) -> NoDup (keys_of (concat bs)) ->
  (forall x, In x (keys_of es) -> ~ In x (keys_of (concat bs))) ->
  exists bs', put_all hc bs es = Some bs' /\ bok bs' /\ length bs' = length bs /\
    Permutation (concat bs') (es ++ concat bs).
Proof.
  induction es as [|[k v] es IH]; intros F N bs B Hne Fb Nb D.
  - exists bs. auto.
  - inversion F as [|? ? Vk F2]; inversion N as [|? ? Hk N2]; subst. cbn [put_all]. rewrite put_entry_modify.
    destruct (modify_spec bs k (fun _ => Some v) B Hne Fb Nb Vk ltac:(eauto)) as (bs1 & inc & cur & new & -> & [= <-] & C & U & B1 & L & _).
    cbn [fst]. assert (Hn : ~ In k (keys_of (concat bs))) by (apply D; now left).
    pose proof (upd_new_perm _ _ _ _ Nb Hn U) as P. fold (keys_of es) in *.
    assert (Pk : Permutation (keys_of (concat bs1)) (k :: keys_of (concat bs))) by (apply (Permutation_map fst P)).
    destruct (IH F2 N2 bs1 B1) as (bs' & E & B' & L' & P').
    + destruct bs1; [|discriminate]. destruct bs; [tauto|discriminate].
    + apply Forall_forall. intros x Hx. apply (Permutation_in _ Pk) in Hx as [<-|Hx]; auto. apply (Forall_in _ _ _ Fb Hx).
    + apply U.
    + intros x Hx Hi. apply (Permutation_in _ Pk) in Hi as [<-|Hi]; [tauto|]. apply (D x); auto. now right.
    + exists bs'. split; auto. split; auto. split; [congruence|].
      rewrite P'. cbn [app]. rewrite P. symmetry. apply Permutation_middle.
Qed.
End Vec.

Section Table.
Variable hc : hcfg.
Record ht_ok (ht : hashtable) (m : amap) : Prop := {
  ho_R : R (concat (buckets ht)) m;
  ho_bok : bok hc (buckets ht);
  ho_count : n_keys ht = N.of_nat (length (concat (buckets ht)));
}.
Definition sized := (0 < init_size hc < 2 ^ 28 /\ 0 < load_num hc <= 2 * load_den hc)%N.

Lemma sizes_pos n s : get_hashtable_size n = Some s -> (n < s)%N.
Proof. intros E. apply find_some in E as [_ E]. now apply N.ltb_lt in E. Qed.
Lemma sizes_exist n : (n < 1610612741)%N -> exists s, get_hashtable_size n = Some s.
Proof.
  intros H. unfold get_hashtable_size. destruct (find _ hashtable_sizes) eqn:E; eauto.
  pose proof (find_none _ _ E 1610612741%N) as G. cbv beta in G. apply N.ltb_ge in G; [lia|].
  unfold hashtable_sizes. do 25 right. now left.
Qed.
Lemma resize_spec ht m n : ht_ok ht m -> (0 < n)%N ->
  exists ht', resize_hashtable hc ht n = Some ht' /\ ht_ok ht' m /\ ht_ro ht' = ht_ro ht /\
    n_buckets ht' = n /\ n_keys ht' = n_keys ht /\ Permutation (concat (buckets ht')) (concat (buckets ht)).
Proof.
  intros [HR HB HC] Hn. unfold resize_hashtable.
  destruct (put_all_spec hc (concat (buckets ht)) (R_vp _ _ HR) (r_nodup _ _ HR) (new_buckets n)) as (bs & -> & B & L & P).
  - apply bok_new.
  - unfold new_buckets. destruct (N.to_nat n) eqn:E; [lia|discriminate].
  - rewrite concat_new. constructor. - rewrite concat_new. constructor. - rewrite concat_new. auto.
  - rewrite concat_new, app_nil_r in P. eexists. split; [reflexivity|]. cbn [buckets n_keys ht_ro].
    split; [|split; auto; split; auto].
    + constructor; cbn [buckets n_keys]; auto. * eapply R_perm; [exact HR|now symmetry]. * now rewrite (Permutation_length P).
    + unfold n_buckets. cbn [buckets]. rewrite L. unfold new_buckets. rewrite repeat_length. lia.
Qed.
Lemma ensure_spec ht m : sized -> ht_ok ht m -> ht_ok (ensure hc ht) m /\ buckets (ensure hc ht) <> [] /\
  ht_ro (ensure hc ht) = ht_ro ht /\ n_keys (ensure hc ht) = n_keys ht /\ concat (buckets (ensure hc ht)) = concat (buckets ht).
Proof.
  intros [Hi _] H. unfold ensure. destruct (N.eqb_spec (n_buckets ht) 0) as [E|E].
  - assert (Eb : buckets ht = []) by (unfold n_buckets in E; destruct (buckets ht); [auto|simpl in E; lia]).
    destruct H as [HR HB HC]. rewrite Eb in *. cbn in HR, HC. cbn [setup buckets n_keys ht_ro concat]. rewrite !concat_new.
    split; [|split; [|auto]].
    + constructor; cbn [setup buckets n_keys]; rewrite ?concat_new; auto. apply bok_new.
    + unfold new_buckets. destruct (N.to_nat (init_size hc)) eqn:En; [lia|discriminate].
  - split; auto. split; auto. intros Eb. apply E. unfold n_buckets. now rewrite Eb.
Qed.
Lemma auto_resize_spec ht m : sized -> ht_ok ht m -> (n_keys ht < 2 ^ 29)%N ->
  exists ht', auto_resize hc ht = Some ht' /\ ht_ok ht' m /\ ht_ro ht' = ht_ro ht /\ n_keys ht' = n_keys ht /\
    Permutation (concat (buckets ht')) (concat (buckets ht)).
Proof.
  intros [_ [Hl1 Hl2]] H Hk. unfold auto_resize. destruct (needs_resize hc ht).
  - assert (Ht : (resize_target hc ht <= 2 * n_keys ht)%N).
    { unfold resize_target. apply N.div_le_upper_bound; [lia|]. nia. }
    destruct (sizes_exist (resize_target hc ht)) as [s Es]; [lia|]. rewrite Es.
    apply sizes_pos in Es. destruct (resize_spec ht m s H) as (ht' & -> & A & B & _ & C & D); [lia|]. eauto 7.
  - exists ht. auto.
Qed.
Lemma check_size_spec ht m d : sized -> ht_ok ht m -> (n_keys ht < 2 ^ 28)%N -> (d < 2 ^ 28)%N ->
  exists ht', check_size hc ht d = Some ht' /\ ht_ok ht' m /\ ht_ro ht' = ht_ro ht /\ n_keys ht' = n_keys ht /\
    Permutation (concat (buckets ht')) (concat (buckets ht)).
Proof.
  intros [Hi _] H Hk Hd. unfold check_size. destruct (N.eqb_spec (n_buckets ht) 0) as [E|E].
  - assert (Eb : buckets ht = []) by (unfold n_buckets in E; destruct (buckets ht); [auto|simpl in E; lia]).
    destruct (sizes_exist (n_keys ht + d + init_size hc)) as [s ->]; [lia|]. eexists. split; [reflexivity|].
    destruct H as [HR HB HC]. rewrite Eb in *. cbn in HR, HC. cbn [setup buckets n_keys ht_ro concat]. rewrite !concat_new.
    split; [|auto]. constructor; cbn [setup buckets n_keys]; rewrite ?concat_new; auto. apply bok_new.
  - destruct (N.ltb_spec (n_buckets ht) (n_keys ht + d + init_size hc)).
    + destruct (sizes_exist ((n_keys ht + d + init_size hc) * 2)) as [s Es]; [lia|]. rewrite Es.
      apply sizes_pos in Es. destruct (resize_spec ht m s H) as (ht' & -> & A & B & _ & C & D); [lia|]. eauto 7.
    + exists ht. auto.
Qed.

Variable cf : config.
Hypothesis Hcf : cfg_ok cf.
Hypothesis Hsz : sized.
Variables (ht : hashtable) (m : amap).
Hypothesis H : ht_ok ht m.
Let l := concat (buckets ht).

Definition h_fresh k (r : Z) : Prop := (r = 0%Z /\ In k (keys_of l)) \/ (r = 1%Z /\ ~ In k (keys_of l)).
Definition h_found k (r : Z) : Prop := (r = 1%Z /\ In k (keys_of l)) \/ (r = 0%Z /\ ~ In k (keys_of l)).
Definition h_frame k (ht' : hashtable) : Prop :=
  forall k' v', k' <> k -> (In (k', v') (concat (buckets ht')) <-> In (k', v') l).

Lemma simple_value v P : vgood v P -> exists w,
  (match v with Pre _ => do s <- simplify cf v; Some (Simple s) | Simple _ => Some v end) = Some (Simple w) /\
  represents w P /\ vgood (Simple w) P.
Proof.
  intros (V1 & V2 & V3). destruct (simplify_spec cf v Hcf V1) as (s & E & S1 & S2). exists s.
  assert (E' : (match v with Pre _ => do s <- simplify cf v; Some (Simple s) | Simple _ => Some v end) = Some (Simple s)).
  { destruct v; [cbn in E; congruence|now rewrite E]. }
  split; auto. assert (forall x, In x (selts s) <-> P x) by (intros x; now rewrite S2, V3).
  split; [split; auto|]. split; [exact S1|]. split; [exact I|auto].
Qed.
Lemma h_store_spec k v P : key_ok k -> vgood v P -> (forall y, P y -> clean y) -> ht_ro ht = false ->
  (n_keys ht < 2 ^ 28)%N ->
  exists r ht', hashtable_store hc cf ht k v = Some (r, ht') /\ h_fresh k r /\ ht_ro ht' = ht_ro ht /\
    ht_ok ht' (a_store m k P) /\ h_frame k ht' /\ (n_keys ht' <= n_keys ht + 1)%N.
Proof.
  intros Hk V Cl Hro Hb. unfold hashtable_store. destruct (key_guard k Hk) as [-> ->].
  destruct (vgood_clean _ _ V Cl) as (-> & _ & _). rewrite Hro.
  destruct (ensure_spec ht m Hsz H) as (H0 & Hne & Ero & Enk & Ec). set (ht0 := ensure hc ht) in *.
  destruct (simple_value v P V) as (w & Ew & _ & Gw). rewrite Ew. clear Ew.
  pose proof (ho_R _ _ H0) as HR.
  destruct (modify_spec hc (buckets ht0) k (fun _ => Some (Simple w)) (ho_bok _ _ H0) Hne (R_vp _ _ HR) (r_nodup _ _ HR))
    as (bs' & inc & cur & new & E & [= <-] & C & U & B & L & Len); [apply Hk|eauto|].
  unfold modify in E. destruct (hashvec_insert hc k (buckets ht0)) as [[[[o i] b] inc']|]; [|discriminate].
  destruct (value_in b o i); [|discriminate]. destruct (write_in b o i (Simple w)) as [bs2|]; [|discriminate].
  injection E as -> ->.
  set (ht1 := {| buckets := bs'; n_keys := n_keys ht0 + inc; ht_ro := ht_ro ht0 |}).
  assert (H1 : ht_ok ht1 (a_store m k P)).
  { constructor; cbn [ht1 buckets n_keys]; auto.
    - apply (R_store _ m k (Simple w) P _ HR); auto.
    - now rewrite Len, (ho_count _ _ H0). }
  assert (Hi : (inc <= 1)%N) by (destruct C as [[_ ->]|(_ & _ & ->)]; lia).
  destruct (auto_resize_spec ht1 _ Hsz H1) as (ht' & -> & A1 & A2 & A3 & A4); [cbn [ht1 n_keys]; lia|].
  eexists _, _. split; [reflexivity|]. rewrite A2, A3. cbn [ht1 ht_ro n_keys]. split.
  { unfold h_fresh, l. rewrite <- Ec. destruct C as [[Hin ->]|(Hn & _ & ->)]; [left|right]; split; auto. eapply keys_in; eauto. }
  split; [congruence|]. split; auto. split; [|lia].
  intros k' v' Hn. unfold l. rewrite <- Ec. destruct U as (_ & U & _). rewrite <- (U k' v' Hn). cbn [ht1 buckets] in A4.
  split; apply Permutation_in; [auto|now symmetry].
Qed.
Lemma h_add_value shared k v P cur : vgood v P -> (forall y, P y -> clean y) ->
  In (k, cur) l \/ ~ In k (keys_of l) /\ cur = EMPTYV ->
  exists new, (if lvoidp cur then Some v else add_to_choice cf shared cur v) = Some new /\
    vgood new (fun y => cont m k y \/ P y).
Proof.
  intros V Cl Hc. pose proof (ho_R _ _ H) as HR.
  assert (Vc : vgood cur (cont m k) /\ (forall y, cont m k y -> clean y)).
  { destruct Hc as [Hc|[Hn ->]].
    - split; [now apply (r_cont _ _ HR)|]. intros y Hy. now apply (r_sub _ _ HR) in Hy.
    - destruct (R_absent _ _ _ HR Hn) as [_ A]. split.
      + destruct emptyv_good as (A1 & A2 & A3). split; auto. split; auto. intros x. rewrite A3. split; [tauto|]. apply A.
      + intros y Hy. now apply A in Hy. }
  destruct Vc as [Vc Cc]. destruct (vgood_clean _ _ Vc Cc) as (_ & -> & _).
  destruct Vc as (C1 & C2 & C3), V as (V1 & V2 & V3).
  destruct (add_to_choice_spec cf shared cur v Hcf C1 C2 V1 V2) as (r & -> & R1 & R2 & R3).
  exists r. split; auto. split; auto. split; auto. intros y. now rewrite R3, C3, V3.
Qed.
End Table.

Section Table2.
Variable hc : hcfg.
Variable cf : config.
Hypothesis Hcf : cfg_ok cf.
Hypothesis Hsz : sized hc.
Variables (ht : hashtable) (m : amap).
Hypothesis H : ht_ok hc ht m.
Let l := concat (buckets ht).


Lemma not_choice k (A : Type) (x : list val -> A) (y : A) : key_ok k -> match k with VChoice c => x c | _ => y end = y.
Proof. intros [(_ & _ & _ & _ & Hc) _]. destruct k; auto. now destruct (Hc l0). Qed.
Lemma h_add_to shared k v P : key_ok k -> vgood v P -> (forall y, P y -> clean y) -> (exists y, P y) ->
  exists r ht', add_to_hashtable hc cf shared ht k v = Some (r, ht') /\ h_fresh ht k r /\ ht_ro ht' = ht_ro ht /\
    ht_ok hc ht' (a_add m k P) /\ h_frame ht k ht' /\ (n_keys ht' <= n_keys ht + 1)%N.
Proof.
  intros Hk V Cl Ne. unfold add_to_hashtable.
  destruct (ensure_spec hc ht m Hsz H) as (H0 & Hnb & Ero & Enk & Ec). set (ht0 := ensure hc ht) in *.
  pose proof (ho_R _ _ _ H0) as HR.
  set (f := fun cur => if lvoidp cur then Some v else add_to_choice cf shared cur v).
  assert (Hv : forall cur, In (k, cur) (concat (buckets ht0)) \/ ~ In k (keys_of (concat (buckets ht0))) /\ cur = EMPTYV ->
     exists new, f cur = Some new /\ vgood new (fun y => cont m k y \/ P y)).
  { intros cur Hc. now apply (h_add_value hc cf Hcf ht0 m H0). }
  destruct (modify_spec hc (buckets ht0) k f (ho_bok _ _ _ H0) Hnb (R_vp _ _ HR) (r_nodup _ _ HR))
    as (bs' & inc & cur & new & E & En & C & U & B & L & Len); [apply Hk| |].
  { intros cur Hc. destruct (Hv cur Hc) as (new & E & _). eauto. }
  assert (Gn : vgood new (fun y => cont m k y \/ P y)).
  { destruct (Hv cur) as (new' & E' & G); [destruct C as [[]|(? & ? & ?)]; auto|]. congruence. }
  unfold modify in E. destruct (hashvec_insert hc k (buckets ht0)) as [[[[o i] b] inc']|]; [|discriminate].
  destruct (value_in b o i) as [c|]; [|discriminate]. fold (f c). destruct (f c) as [nw|]; [|discriminate].
  destruct (write_in b o i nw) as [bs2|]; [|discriminate]. injection E as -> ->.
  assert (Hi : (inc <= 1)%N) by (destruct C as [[_ ->]|(_ & _ & ->)]; lia).
  eexists _, _. split; [reflexivity|]. cbn [ht_ro n_keys]. split.
  { unfold h_fresh. rewrite <- Ec. destruct C as [[Hin ->]|(Hn & _ & ->)]; [left|right]; split; auto. eapply keys_in; eauto. }
  split; auto. split; [|split; [|lia]].
  - constructor; cbn [buckets n_keys]; auto.
    + apply (R_add _ m k new P _ HR); auto.
    + now rewrite Len, (ho_count _ _ _ H0).
  - intros k' v' Hn. cbn [buckets]. rewrite <- Ec. now apply U.
Qed.
End Table2.

Section Table3.
Variable hc : hcfg.
Variable cf : config.
Hypothesis Hcf : cfg_ok cf.
Hypothesis Hsz : sized hc.
Variables (ht : hashtable) (m : amap).
Hypothesis H : ht_ok hc ht m.
Let l := concat (buckets ht).

Lemma perm_keys (a b : list keyval) k : Permutation a b -> (In k (keys_of a) <-> In k (keys_of b)).
Proof. intros P. split; apply Permutation_in; [now apply Permutation_map|symmetry; now apply Permutation_map]. Qed.
Lemma h_add_spec shared k v P : key_ok k -> vgood v P -> (forall y, P y -> clean y) -> ht_ro ht = false ->
  (n_keys ht < 2 ^ 28)%N -> (exists y, P y) ->
  exists r ht', hashtable_add hc cf shared ht k v = Some (r, ht') /\ h_fresh ht k r /\ ht_ro ht' = ht_ro ht /\
    ht_ok hc ht' (a_add m k P) /\ h_frame ht k ht' /\ (n_keys ht' <= n_keys ht + 1)%N.
Proof.
  intros Hk V Cl Hro Hb Ne. unfold hashtable_add. destruct (key_guard k Hk) as [-> ->].
  destruct (vgood_clean _ _ V Cl) as (-> & _ & _). rewrite Hro, not_choice by auto.
  destruct (lemptyp v) eqn:Ee.
  { destruct Ne as [y Hy]. exfalso. now apply (proj1 (vgood_empty v P V) Ee y). }
  destruct (check_size_spec hc ht m 3 Hsz H Hb eq_refl) as (ht0 & -> & H0 & Ero & Enk & Pm).
  destruct (h_add_to hc cf Hcf Hsz ht0 m H0 shared k v P Hk V Cl Ne) as (r & ht' & -> & F & B & A & G & I).
  exists r, ht'. split; auto. split.
  { unfold h_fresh in *. now rewrite <- !(perm_keys _ _ k Pm). }
  split; [congruence|]. split; auto. split; [|lia].
  intros k' v' Hn. rewrite (G k' v' Hn). split; apply Permutation_in; [auto|now symmetry].
Qed.
Lemma h_nonempty : (0 < n_keys ht)%N -> buckets ht <> [].
Proof. intros Hp E. rewrite (ho_count _ _ _ H), E in Hp. cbn in Hp. lia. Qed.
Lemma h_empty k : n_keys ht = 0%N -> ~ In k (keys_of l).
Proof.
  intros E. rewrite (ho_count _ _ _ H) in E. unfold l. destruct (concat (buckets ht)); [auto|simpl in E; lia].
Qed.
(** The key's entry, or its absence. *)
Lemma h_lookup k : vp k -> n_keys ht <> 0%N ->
  (exists j b v, hashvec_get hc k (buckets ht) = Some (Some (offset hc k (buckets ht), j)) /\
    nth_error (buckets ht) (offset hc k (buckets ht)) = Some b /\ nth_error b j = Some (k, v) /\ In (k, v) l) \/
  (hashvec_get hc k (buckets ht) = Some None /\ ~ In k (keys_of l)).
Proof.
  intros Vk Hp. pose proof (ho_R _ _ _ H) as HR.
  destruct (hashvec_get_spec hc k (buckets ht) (ho_bok _ _ _ H)) as [(i & j & b & v & E & Eb & Ej)|]; auto.
  - apply h_nonempty. lia.
  - apply (R_vp _ _ HR).
  - left. assert (i = offset hc k (buckets ht)); [|subst; exists j, b, v].
    + symmetry. apply (b_place _ _ (ho_bok _ _ _ H) _ _ (k, v) Eb). eapply nth_error_In; eauto.
    + split; auto. split; auto. split; auto. apply in_concat. exists b. split; eapply nth_error_In; eauto.
Qed.
Lemma h_remove k b j v m' : key_ok k -> nth_error (buckets ht) (offset hc k (buckets ht)) = Some b ->
  nth_error b j = Some (k, v) ->
  (forall l', upd l k None l' -> R l' m') ->
  let ht' := {| buckets := set_at (offset hc k (buckets ht)) (remove_at j b) (buckets ht);
                n_keys := n_keys ht - 1; ht_ro := ht_ro ht |} in
  ht_ok hc ht' m' /\ h_frame ht k ht' /\ (n_keys ht' <= n_keys ht)%N.
Proof.
  intros Hk E Ej HR' ht'. pose proof (ho_R _ _ _ H) as HR. pose proof (r_nodup _ _ HR) as N.
  pose proof (bucket_nodup _ _ _ N E) as Nb.
  pose proof (remove_upd _ _ _ _ Nb Ej) as Ub.
  pose proof (vec_upd hc _ _ _ _ _ (ho_bok _ _ _ H) E N Ub) as U.
  split; [|split; [exact (proj1 (proj2 U))|cbn; lia]]. constructor; cbn [ht' buckets n_keys].
  - now apply HR'.
  - apply (bok_set hc _ k b); auto; [apply (ho_bok _ _ _ H)| |].
    + rewrite keys_remove. intros x Hx. right. eapply remove_in; eauto.
    + rewrite keys_remove. apply ssorted_remove. apply (Forall_in _ _ _ (b_sorted _ _ (ho_bok _ _ _ H))). eapply nth_error_In; eauto.
  - pose proof (vec_len _ _ _ (remove_at j b) E) as Q.
    assert (Lr : Datatypes.S (length (remove_at j b)) = length b).
    { destruct (nodup_split b j k v Nb Ej) as (r & P1 & _ & _ & _ & P5). rewrite P5, (Permutation_length P1). reflexivity. }
    rewrite (ho_count _ _ _ H). lia.
Qed.
Lemma h_write k b j v w m' : key_ok k -> nth_error (buckets ht) (offset hc k (buckets ht)) = Some b ->
  nth_error b j = Some (k, v) ->
  (forall l', upd l k (Some w) l' -> R l' m') ->
  exists bs', write_in (buckets ht) (offset hc k (buckets ht)) j w = Some bs' /\
 let ht' := {| buckets := bs'; n_keys := n_keys ht; ht_ro := ht_ro ht |} in
  ht_ok hc ht' m' /\ h_frame ht k ht' /\ (n_keys ht' <= n_keys ht)%N.
Proof.
  intros Hk E Ej HR'. pose proof (ho_R _ _ _ H) as HR. pose proof (r_nodup _ _ HR) as N.
  pose proof (bucket_nodup _ _ _ N E) as Nb.
  pose proof (set_upd _ _ _ _ w Nb Ej) as Ub.
  pose proof (vec_upd hc _ _ _ _ _ (ho_bok _ _ _ H) E N Ub) as U.
  unfold write_in. rewrite E, (write_value_eq _ _ _ _ _ Ej). eexists. split; [reflexivity|].
  split; [|split; [exact (proj1 (proj2 U))|cbn; lia]]. constructor; cbn [buckets n_keys].
  - now apply HR'.
  - apply (bok_set hc _ k b); auto; [apply (ho_bok _ _ _ H)| |].
    + rewrite (keys_set _ _ _ _ _ Ej). auto.
    + rewrite (keys_set _ _ _ _ _ Ej). apply (Forall_in _ _ _ (b_sorted _ _ (ho_bok _ _ _ H))). eapply nth_error_In; eauto.
  - pose proof (vec_len _ _ _ (set_at j (k, w) b) E) as Q. rewrite (set_len_at _ _ _ _ Ej) in Q.
    rewrite (ho_count _ _ _ H). lia.
Qed.
Definition locked_or r (ht' : hashtable) : Prop := n_keys ht <> 0%N /\ ht_ro ht = true /\ r = (-1)%Z /\ ht' = ht.
Lemma h_drop_spec k v P : key_ok k -> vgood v P -> (forall y, P y -> clean y) ->
  exists r ht', hashtable_drop hc cf ht k v = Some (r, ht') /\
    (locked_or r ht' \/ (ht_ro ht = true -> n_keys ht = 0%N) /\
     h_found ht k r /\ ht_ro ht' = ht_ro ht /\
     ht_ok hc ht' (a_drop m k P) /\ h_frame ht k ht' /\ (n_keys ht' <= n_keys ht)%N).
Proof.
  intros Hk V Cl. pose proof (ho_R _ _ _ H) as HR.
  unfold hashtable_drop. destruct (key_guard k Hk) as [-> ->].
  destruct (vgood_clean _ _ V Cl) as (-> & -> & _).
  destruct (N.eqb_spec (n_keys ht) 0) as [Z|Z].
  { pose proof (h_empty k Z) as Hn. eexists _, _. split; [reflexivity|]. right. split; auto. split; [right; auto|]. split; auto.
    split; [|split; [intros ? ?; tauto|lia]]. destruct H as [A B C]. constructor; auto. now apply R_drop_absent. }
  destruct (ht_ro ht) eqn:Ero.
  { eexists _, _. split; [reflexivity|]. left. split; auto. }
  destruct (h_lookup k) as [(j & b & cur & -> & Eb & Ej & Hin)|(-> & Hn)]; [apply Hk|auto| |].
  - rewrite Eb. unfold value_at. rewrite Ej. cbn [snd]. rewrite Bool.orb_false_r.
    assert (Kin : In k (keys_of l)) by (eapply keys_in; eauto).
    assert (G : exists new, (if lemptyp cur then Some EMPTYV else kno_difference cf cur v) = Some new /\
                  vgood new (fun y => cont m k y /\ ~ P y)).
    { pose proof (r_cont _ _ HR _ _ Hin) as G. destruct (lemptyp cur) eqn:Ec.
      - exists EMPTYV. split; auto. assert (Z' := proj1 (vgood_empty _ _ G) Ec).
        destruct emptyv_good as (A1 & A2 & A3). split; auto. split; auto. intros y. rewrite A3. split; [tauto|]. intros [Hy _]. now apply Z' in Hy.
      - destruct G as (C1 & C2 & C3), V as (V1 & V2 & V3).
        destruct (difference_spec cf cur v Hcf C1 V1) as (new & -> & D1 & D2 & D3). exists new. split; auto.
        split; auto. split; auto. intros y. now rewrite D3, C3, V3. }
    destruct G as (new & -> & G). destruct (lemptyp new) eqn:Ee.
    + destruct (h_remove k b j cur (a_drop m k P) Hk Eb Ej) as (A1 & A2 & A3).
      { intros l' U. apply (R_drop_none l); auto. now apply (vgood_empty _ _ G). }
      rewrite Ero in A1, A2, A3. eexists _, _. split; [reflexivity|]. right. split; [congruence|]. split; [left; auto|]. auto.
    + destruct (h_write k b j cur new (a_drop m k P) Hk Eb Ej) as (bs' & -> & A1 & A2 & A3).
      { intros l' U. apply (R_drop_some l m k new); auto.
        * now apply (r_pres _ _ HR).
        * apply (vgood_lelts _ _ G). intros E. apply (vgood_empty _ _ G) in E. congruence. }
      rewrite Ero in A1, A2, A3. eexists _, _. split; [reflexivity|]. right. split; [congruence|]. split; [left; auto|]. auto.
  - eexists _, _. split; [reflexivity|]. right. split; [congruence|]. split; [right; auto|]. split; auto.
    split; [|split; [intros ? ?; tauto|lia]]. destruct H as [A B C]. constructor; auto. now apply R_drop_absent.
Qed.
Lemma h_drop_all_spec k : key_ok k ->
  exists r ht', hashtable_drop hc cf ht k (Simple (SVal KVOID)) = Some (r, ht') /\
    (locked_or r ht' \/ (ht_ro ht = true -> n_keys ht = 0%N) /\
     h_found ht k r /\ ht_ro ht' = ht_ro ht /\
     ht_ok hc ht' (a_delete m k) /\ h_frame ht k ht' /\ (n_keys ht' <= n_keys ht)%N).
Proof.
  intros Hk. pose proof (ho_R _ _ _ H) as HR.
  unfold hashtable_drop. destruct (key_guard k Hk) as [-> ->].
  change (trouble (Simple (SVal KVOID))) with false. change (lvoidp (Simple (SVal KVOID))) with true. cbv iota.
  destruct (N.eqb_spec (n_keys ht) 0) as [Z|Z].
  { pose proof (h_empty k Z) as Hn. eexists _, _. split; [reflexivity|]. right. split; auto. split; [right; auto|]. split; auto.
    split; [|split; [intros ? ?; tauto|lia]]. destruct H as [A B C]. constructor; auto. now apply R_delete_absent. }
  destruct (ht_ro ht) eqn:Ero.
  { eexists _, _. split; [reflexivity|]. left. split; auto. }
  destruct (h_lookup k) as [(j & b & cur & -> & Eb & Ej & Hin)|(-> & Hn)]; [apply Hk|auto| |].
  - rewrite Eb. unfold value_at. rewrite Ej. cbn [snd]. rewrite Bool.orb_true_r. cbn [lemptyp EMPTYV is_empty].
    assert (Kin : In k (keys_of l)) by (eapply keys_in; eauto).
    destruct (h_remove k b j cur (a_delete m k) Hk Eb Ej) as (A1 & A2 & A3).
    { intros l' U. now apply (R_delete l). }
    rewrite Ero in A1, A2, A3. eexists _, _. split; [reflexivity|]. right. split; [congruence|]. split; [left; auto|]. auto.
  - eexists _, _. split; [reflexivity|]. right. split; [congruence|]. split; [right; auto|]. split; auto.
    split; [|split; [intros ? ?; tauto|lia]]. destruct H as [A B C]. constructor; auto. now apply R_delete_absent.
Qed.

(** ** Lookup *)
Lemma h_nonvoid k v : In (k, v) l -> lvoidp v = false.
Proof.
  intros Hin. pose proof (ho_R _ _ _ H) as HR. pose proof (r_cont _ _ HR _ _ Hin) as G.
  apply (vgood_clean _ _ G). intros y Hy. now apply (r_sub _ _ HR) in Hy.
Qed.
Lemma h_get_entry k cur d : In (k, cur) l -> key_ok k -> hashtable_get hc cf ht k d =
  match cur with Pre _ => do s <- simplify cf cur; Some (Simple s) | Simple _ => Some cur end.
Proof.
  intros Hin Hk. pose proof (ho_R _ _ _ H) as HR. unfold hashtable_get. destruct (key_guard k Hk) as [_ ->].
  destruct (N.eqb_spec (n_keys ht) 0) as [Z|Z]; [exfalso; apply (h_empty k Z); eapply keys_in; eauto|].
  destruct (h_lookup k) as [(j & b & c & -> & Eb & Ej & Hin')|(-> & Hn)]; [apply Hk|auto| |].
  - unfold value_in, value_at. rewrite Eb, Ej. cbn [snd]. rewrite (h_nonvoid _ _ Hin').
    now rewrite (nodup_fun _ k c cur (r_nodup _ _ HR) Hin' Hin).
  - exfalso. apply Hn. eapply keys_in; eauto.
Qed.
Lemma h_get_absent k d : ~ In k (keys_of l) -> key_ok k -> hashtable_get hc cf ht k d = Some d.
Proof.
  intros Hn Hk. unfold hashtable_get. destruct (key_guard k Hk) as [_ ->].
  destruct (N.eqb_spec (n_keys ht) 0) as [Z|Z]; auto.
  destruct (h_lookup k) as [(j & b & c & -> & Eb & Ej & Hin')|(-> & _)]; [apply Hk|auto| |auto].
  exfalso. apply Hn. eapply keys_in; eauto.
Qed.
Lemma h_in_dec k : vp k -> In k (keys_of l) \/ ~ In k (keys_of l).
Proof.
  intros Vk. destruct (N.eqb_spec (n_keys ht) 0) as [Z|Z]; [right; now apply h_empty|].
  destruct (h_lookup k Vk Z) as [(j & b & c & _ & _ & _ & Hin)|(_ & Hn)]; auto. left. eapply keys_in; eauto.
Qed.
Lemma h_get_spec k d : key_ok k ->
  exists v, hashtable_get hc cf ht k d = Some v /\
    (pres m k -> exists s, v = Simple s /\ represents s (cont m k)) /\ (~ pres m k -> v = d).
Proof.
  intros Hk. pose proof (ho_R _ _ _ H) as HR. destruct (h_in_dec k) as [Hi|Hn]; [apply Hk| |].
  - apply in_keys in Hi as [cur Hin]. rewrite (h_get_entry k cur d Hin Hk).
    destruct (simple_value cf Hcf cur _ (r_cont _ _ HR _ _ Hin)) as (s & -> & Rs & _).
    eexists. split; [reflexivity|]. split; [eauto|]. intros Hp. exfalso. apply Hp, (r_pres _ _ HR). eapply keys_in; eauto.
  - rewrite (h_get_absent k d Hn Hk). exists d. split; auto. rewrite (r_pres _ _ HR). tauto.
Qed.
Lemma h_probe_spec k : key_ok k -> exists b, hashtable_probe hc ht k = Some b /\ (b = true <-> pres m k).
Proof.
  intros Hk. pose proof (ho_R _ _ _ H) as HR. unfold hashtable_probe. destruct (key_guard k Hk) as [_ ->].
  setoid_rewrite (r_pres _ _ HR). destruct (N.eqb_spec (n_keys ht) 0) as [Z|Z].
  { exists false. split; auto. split; [discriminate|]. intros Hi. now apply h_empty in Hi. }
  destruct (h_lookup k) as [(j & b & c & -> & Eb & Ej & Hin')|(-> & Hn)]; [apply Hk|auto| |].
  - exists true. split; auto. split; auto. intros _. eapply keys_in; eauto.
  - exists false. split; auto. split; [discriminate|]. intros Hi. now apply Hn in Hi.
Qed.
Lemma h_test_spec k v P : key_ok k -> vgood v P -> (forall y, P y -> clean y) ->
  exists b, hashtable_test hc cf ht k v = Some b /\
   (b = true <-> pres m k /\ ((exists y, P y /\ cont m k y) \/ (forall y, ~ P y) /\ (forall y, ~ cont m k y))).
Proof.
  intros Hk V Cl. pose proof (ho_R _ _ _ H) as HR. unfold hashtable_test. destruct (key_guard k Hk) as [_ ->].
  setoid_rewrite (r_pres _ _ HR). destruct (N.eqb_spec (n_keys ht) 0) as [Z|Z].
  { exists false. split; auto. split; [discriminate|]. intros [Hi _]. now apply h_empty in Hi. }
  destruct (h_lookup k) as [(j & b & cur & -> & Eb & Ej & Hin)|(-> & Hn)]; [apply Hk|auto| |].
  - unfold value_in, value_at. rewrite Eb, Ej. cbn [snd]. destruct (vgood_clean _ _ V Cl) as (_ & -> & _).
    destruct (test_values_spec cf v P cur (cont m k) Hcf V Cl (r_cont _ _ HR _ _ Hin)) as (b' & E & B). exists b'. split; auto.
    assert (In k (keys_of (concat (buckets ht)))) by (eapply keys_in; eauto). tauto.
  - exists false. split; auto. split; [discriminate|]. intros [Hi _]. now apply Hn in Hi.
Qed.

(** ** Listings *)
Lemma h_live : live ht = l.
Proof.
  unfold live. fold l. assert (G : forall e, In e l -> lvoidp (snd e) = false) by (intros [k v]; apply h_nonvoid).
  clearbody l. clear -G. induction l as [|e r IH]; auto. cbn [filter]. rewrite (G e) by now left. cbn [negb].
  f_equal. apply IH. intros x Hx. apply G. now right.
Qed.
Lemma collect_spec ks : Forall elt_ok ks -> forall acc P, vgood acc P ->
  exists r, collect cf acc ks = Some r /\ vgood r (fun y => P y \/ In y ks).
Proof.
  induction 1 as [|k ks Hk Hks IH]; intros acc P G; cbn [collect].
  - exists acc. split; auto. destruct G as (A & B & C). split; auto. split; auto. intros y. rewrite C. simpl. tauto.
  - destruct G as (A & B & C).
    destruct (add_to_choice_spec cf false acc (Simple (SVal k)) Hcf A B) as (r & -> & R1 & R2 & R3); [now right|exact I|].
    destruct (IH r (fun y => P y \/ y = k)) as (r' & -> & G').
    + split; auto. split; auto. intros y. rewrite R3, C. cbn [lelts]. rewrite selts_elt by auto. simpl. assert (k = y <-> y = k) by (split; congruence). tauto.
    + exists r'. split; auto. destruct G' as (A' & B' & C'). split; auto. split; auto. intros y. rewrite C'. simpl. assert (k = y <-> y = k) by (split; congruence). tauto.
Qed.
Lemma h_keys_spec : exists s, hashtable_keys cf ht = Some (Simple s) /\ represents s (pres m).
Proof.
  pose proof (ho_R _ _ _ H) as HR. unfold hashtable_keys. rewrite h_live.
  assert (Fe : Forall elt_ok (keys_of l)) by (eapply Forall_impl; [|apply (r_keys _ _ HR)]; now intros k []).
  destruct (collect_spec _ Fe EMPTYV (fun _ => False) emptyv_good) as (r & -> & G1 & G2 & G3).
  destruct (simplify_spec cf r Hcf G1) as (s & -> & S1 & S2). exists s. split; auto. split; auto.
  intros x. rewrite S2, G3, (r_pres _ _ HR). tauto.
Qed.
Lemma h_keyvec_spec : exists ks, hashtable_keyvec ht = Some ks /\ NoDup ks /\ n_keys ht = N.of_nat (length ks) /\
  forall k, In k ks <-> pres m k.
Proof.
  pose proof (ho_R _ _ _ H) as HR. unfold hashtable_keyvec. rewrite h_live. pose proof (ho_count _ _ _ H) as C. fold l in C.
  assert (E : N.of_nat (length (keys_of l)) = n_keys ht) by (rewrite keys_len; auto).
  rewrite E, N.leb_refl. exists (keys_of l). split; auto. split; [apply (r_nodup _ _ HR)|]. split; auto.
  intros k. now rewrite (r_pres _ _ HR).
Qed.
Lemma h_values_spec : exists s, hashtable_values cf ht = Some (Simple s) /\ represents s (fun y => exists k, cont m k y).
Proof.
  pose proof (ho_R _ _ _ H) as HR. unfold hashtable_values.
  destruct (N.eqb_spec (n_keys ht) 0) as [Z|Z].
  { exists (SVal KEMPTY). split; auto. split; [now left|]. intros y. simpl. split; [tauto|]. intros [k Hk].
    apply (r_sub _ _ HR) in Hk as [Hp _]. apply (r_pres _ _ HR) in Hp. now apply h_empty in Hp. }
  rewrite h_live. set (vs := filter _ (map snd l)).
  assert (Vs : forall v, In v vs <-> (exists k, In (k, v) l) /\ lemptyp v = false).
  { intros v. unfold vs. rewrite filter_In, in_map_iff. split.
    - intros [([k w] & Ev & Hin) Hb]. cbn in Ev. subst w. split; [eauto|]. now apply Bool.negb_true_iff.
    - intros [[k Hin] Hb]. split; [exists (k, v); auto|]. now rewrite Hb. }
  assert (Ok : Forall lv_ok vs).
  { apply Forall_forall. intros v Hv. apply Vs in Hv as [[k Hin] _]. now apply (r_cont _ _ HR _ _ Hin). }
  destruct (add_all_spec cf Hcf vs Ok (init_prechoice (17 * N.to_nat (n_keys ht)))) as (p & -> & Hp & Ep).
  { apply pre_init. lia. }
  destruct (simplify_spec cf (Pre p) Hcf Hp) as (s & -> & S1 & S2). exists s. split; auto. split; auto.
  intros y. rewrite S2. cbn [lelts]. rewrite Ep. simpl pelts. split.
  - intros [[]|(v & Hv & Hy)]. apply Vs in Hv as [[k Hin] _]. exists k. now apply (r_cont _ _ HR _ _ Hin).
  - intros [k Hk]. right. pose proof (r_sub _ _ HR _ _ Hk) as [Hp' _]. apply (r_pres _ _ HR), in_keys in Hp' as [v Hin].
    pose proof (r_cont _ _ HR _ _ Hin) as G. exists v. split; [|now apply G]. apply Vs. split; [eauto|].
    destruct (lemptyp v) eqn:Ee; auto. exfalso. now apply (proj1 (vgood_empty _ _ G) Ee y).
Qed.
End Table3.

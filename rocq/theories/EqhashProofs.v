(** * Lemmas on identity-keyed hashtables: on words that LISP_EQUAL tells apart the
    operations are those of HashtableModel as long as no bucket has four keys. *)
From Coq Require Import Lia List.
From Verif Require Import ValueModel ValueProofs SortModel SortProofs ChoicesModel SlotmapModel
  ChoicesProofs ChoicesProofs2 ChoicesProofs3 ChoicesProps TableProofs SlotmapProofs SlotmapProps
  HashtableModel HashtableProofs HashtableProps EqhashModel.
Import ListNotations.

Lemma bs_loop_ext {K} (c c' : K -> comparison) (ks : list K) : (forall m, In m ks -> c m = c' m) ->
  forall fuel b t m d, bs_loop c ks fuel b t m d = bs_loop c' ks fuel b t m d.
Proof.
  intros E. induction fuel as [|f IH]; intros b t m d; cbn [bs_loop]; auto.
  destruct (t <? b)%Z; auto. destruct (_ <? 0)%Z; auto.
  destruct (nth_error ks _) as [x|] eqn:En; auto. rewrite (E x) by (eapply nth_error_In; eauto).
  destruct (c' x); auto.
Qed.
Lemma insert_in {A} i (x y : A) l : In y (insert_at i x l) -> y = x \/ In y l.
Proof.
  unfold insert_at. rewrite in_app_iff. cbn [In]. intros [H|[<-|H]]; auto; right;
    rewrite <- (firstn_skipn i l); apply in_or_app; auto.
Qed.
Lemma lequal_atom w w' : lequal (VAtom w) (VAtom w') = (w =? w')%N.
Proof. reflexivity. Qed.
Lemma bcmp_atom w w' : bcmp (VAtom w) (VAtom w') = (w ?= w')%N.
Proof.
  unfold bcmp. rewrite lequal_atom, cons_compare_q. cbn.
  destruct (N.eqb_spec w w') as [->|Hn]; [now rewrite N.compare_refl|].
  destruct (N.compare_spec w w'); auto. now subst.
Qed.

Section Eq.
Variable ec : ecfg.
Variable cf : config.
(** The keys in use. *)
Variable U : val -> Prop.
Hypothesis U_word : forall k, U k -> exists w, k = VAtom w.
Hypothesis U_apart : forall a b, U a -> U b -> wequal ec a b = true -> a = b.
Notation vec := (list (list keyval)).
Definition inU (bs : vec) : Prop := forall e, In e (concat bs) -> U (fst e).
Definition bU (b : list keyval) : Prop := forall e, In e b -> U (fst e).
Lemma inU_bucket bs i b : inU bs -> nth_error bs i = Some b -> bU b.
Proof. intros H E e He. apply H. apply in_concat. exists b. split; auto. eapply nth_error_In; eauto. Qed.
Lemma inU_set bs i b : inU bs -> bU b -> inU (set_at i b bs).
Proof.
  intros H Hb e He. apply in_concat in He as (c & Hc & He). apply set_in in Hc as [->|Hc]; auto.
  apply H. apply in_concat. eauto.
Qed.
Lemma same_U a b : U a -> U b -> same a b = lequal a b.
Proof. intros Ha Hb. destruct (U_word a Ha) as [w ->], (U_word b Hb) as [w' ->]. reflexivity. Qed.
Lemma wequal_U a b : U a -> U b -> wequal ec a b = lequal a b.
Proof.
  intros Ha Hb. destruct (wequal ec a b) eqn:E.
  - apply U_apart in E; auto. subst. destruct (U_word b Hb) as [w ->]. rewrite lequal_atom. now rewrite N.eqb_refl.
  - unfold wequal in E. apply Bool.orb_false_iff in E as [E _]. now rewrite same_U in E by auto.
Qed.
Lemma matches_U a b : U a -> U b -> key_matches a b = lequal a b.
Proof.
  intros Ha Hb. destruct (U_word a Ha) as [w ->], (U_word b Hb) as [w' ->]. cbn. apply N.eqb_sym.
Qed.
Lemma keyvals_eq k b : U k -> bU b -> eq_keyvals_get ec k b = keyvals_get k b.
Proof.
  intros Hk. induction b as [|[k' v] b IH]; intros Hb; auto. cbn [eq_keyvals_get keyvals_get].
  assert (Hk' : U k') by (apply (Hb (k', v)); now left).
  rewrite IH by (intros e He; apply Hb; now right).
  rewrite wequal_U, same_U, matches_U by auto. now destruct (pointer k).
Qed.
Lemma bucket_get_eq k b : U k -> bU b -> length b <= 3 -> eq_bucket_get ec k b = bucket_get k b.
Proof.
  intros Hk Hb L. destruct b as [|e [|e2 b]]; auto.
  - cbn. rewrite wequal_U; auto. apply Hb. now left.
  - cbn [eq_bucket_get bucket_get]. unfold eq_sortvec_get, sortvec_get.
    destruct (Nat.ltb_spec (length (e :: e2 :: b)) 4); [|lia].
    destruct (Z.ltb_spec (Z.of_nat (length (e :: e2 :: b))) 4); [|lia]. now rewrite keyvals_eq.
Qed.
Definition small (ht : hashtable) : Prop := Forall (fun b => length b <= 3) (buckets ht).
Lemma hashvec_get_eq k bs : U k -> inU bs -> Forall (fun b : list keyval => length b <= 3) bs ->
  eq_hashvec_get ec k bs = hashvec_get (eh ec) k bs.
Proof.
  intros Hk HU L. unfold eq_hashvec_get, hashvec_get.
  destruct (nth_error bs (offset (eh ec) k bs)) as [b|] eqn:E; auto.
  rewrite bucket_get_eq; auto; [eapply inU_bucket; eauto|].
  rewrite Forall_forall in L. apply L. eapply nth_error_In; eauto.
Qed.
Lemma word_cmp k m : U k -> U m -> (word k ?= word m)%N = bcmp k m.
Proof. intros Hk Hm. destruct (U_word k Hk) as [w ->], (U_word m Hm) as [w' ->]. now rewrite bcmp_atom. Qed.
Lemma bucket_insert_eq k b : U k -> bU b -> eq_bucket_insert k b = bucket_insert k b.
Proof.
  intros Hk Hb. unfold eq_bucket_insert, bucket_insert.
  rewrite (bs_loop_ext _ (bcmp k)); auto. intros m Hm. apply word_cmp; auto.
  apply in_map_iff in Hm as (e & <- & He). now apply Hb.
Qed.
Lemma hashvec_insert_eq k bs : U k -> inU bs -> eq_hashvec_insert ec k bs = hashvec_insert (eh ec) k bs.
Proof.
  intros Hk HU. unfold eq_hashvec_insert, hashvec_insert.
  destruct (nth_error bs (offset (eh ec) k bs)) as [b|] eqn:E; auto.
  pose proof (inU_bucket _ _ _ HU E) as Hb. destruct b as [|e [|e2 b]]; auto.
  - rewrite same_U, bucket_insert_eq; auto. apply Hb. now left.
  - now rewrite bucket_insert_eq.
Qed.
(** What an insertion and a write do to keys, bucket count and key count. *)
Lemma bucket_insert_U k b i b' : U k -> bU b -> bucket_insert k b = Some (i, b') -> bU b'.
Proof.
  intros Hk Hb. unfold bucket_insert. destruct (bs_loop _ _ _ _ _ _ _) as [[[m bo] d]|]; [|discriminate].
  destruct (d =? 0)%Z; intros E; injection E as <- <-; auto.
  intros e He. apply insert_in in He as [->|He]; auto.
Qed.
Lemma insert_U k bs o i bs' inc : U k -> inU bs -> hashvec_insert (eh ec) k bs = Some (o, i, bs', inc) ->
  inU bs' /\ length bs' = length bs /\ (inc <= 1)%N.
Proof.
  intros Hk HU. unfold hashvec_insert. set (off := offset (eh ec) k bs).
  destruct (nth_error bs off) as [b|] eqn:E; [|discriminate].
  assert (L : off < length bs) by (apply nth_error_Some; congruence).
  pose proof (inU_bucket _ _ _ HU E) as Hb. destruct b as [|e [|e2 b]].
  - intros Q. injection Q as <- <- <- <-. split; [|split; [now apply set_len_n|lia]].
    apply inU_set; auto. intros x [<-|[]]. auto.
  - destruct (lequal k (fst e)); [intros Q; injection Q as <- <- <- <-; split; auto; split; auto; lia|].
    destruct (bucket_insert k [e]) as [[j b']|] eqn:Ei; [|discriminate]. intros Q; injection Q as <- <- <- <-.
    split; [|split; [now apply set_len_n|lia]]. apply inU_set; auto. eapply bucket_insert_U; eauto.
  - destruct (bucket_insert k (e :: e2 :: b)) as [[j b']|] eqn:Ei; [|discriminate]. intros Q; injection Q as <- <- <- <-.
    split; [|split; [now apply set_len_n|destruct (_ <? _); lia]]. apply inU_set; auto. eapply bucket_insert_U; eauto.
Qed.
Lemma write_U bs o i v bs' : inU bs -> write_in bs o i v = Some bs' -> inU bs' /\ length bs' = length bs.
Proof.
  intros HU. unfold write_in. destruct (nth_error bs o) as [b|] eqn:E; [|discriminate].
  assert (L : o < length bs) by (apply nth_error_Some; congruence).
  pose proof (inU_bucket _ _ _ HU E) as Hb. unfold write_value, key_at.
  destruct (nth_error b i) as [[k c]|] eqn:Ei; [|discriminate]. cbn. intros Q. injection Q as <-.
  split; [|now apply set_len_n]. apply inU_set; auto. intros x Hx. apply set_in in Hx as [->|Hx]; auto.
  apply (Hb (k, c)). eapply nth_error_In; eauto.
Qed.

(** Resizing: only for keys that are not pointers. *)
Definition atoms : Prop := forall k, U k -> pointer k = false /\ lhash ec k = hash (eh ec) k.
Lemma atom_struct k : atoms -> U k -> struct_of ec k = k.
Proof. intros A Hk. destruct (A k Hk) as [P _]. unfold struct_of, pointer in *. destruct k; auto. now rewrite P. Qed.
Lemma lisp_insert_eq k bs : atoms -> U k -> inU bs -> lisp_hashvec_insert ec k bs = hashvec_insert (eh ec) k bs.
Proof.
  intros A Hk HU. unfold lisp_hashvec_insert, hashvec_insert, lisp_offset, offset.
  rewrite atom_struct, (proj2 (A k Hk)) by auto.
  fold (offset (eh ec) k bs). destruct (nth_error bs (offset (eh ec) k bs)) as [b|] eqn:E; auto.
  pose proof (inU_bucket _ _ _ HU E) as Hb.
  assert (B : lisp_bucket_insert ec k b = bucket_insert k b).
  { unfold lisp_bucket_insert, bucket_insert. rewrite atom_struct by auto.
    rewrite (bs_loop_ext _ (bcmp k)); auto. intros m Hm. apply in_map_iff in Hm as (e & <- & He).
    rewrite atom_struct; auto. }
  destruct b as [|e [|e2 b]]; auto.
  - rewrite B, atom_struct; auto. apply Hb. now left.
  - now rewrite B.
Qed.
Lemma put_all_eq es : atoms -> bU es -> forall bs, inU bs -> eq_put_all ec bs es = put_all (eh ec) bs es.
Proof.
  intros A. induction es as [|e es IH]; intros He bs HU; auto. cbn [eq_put_all put_all].
  assert (Hk : U (fst e)) by (apply He; now left).
  unfold eq_put_entry, put_entry. rewrite lisp_insert_eq by auto.
  destruct (hashvec_insert (eh ec) (fst e) bs) as [[[[o i] bs1] inc]|] eqn:Ei; auto.
  destruct (insert_U _ _ _ _ _ _ Hk HU Ei) as (H1 & _).
  destruct (write_in bs1 o i (snd e)) as [bs2|] eqn:Ew; auto. apply IH.
  - intros x Hx. apply He. now right.
  - eapply write_U; eauto.
Qed.
Lemma auto_resize_eq ht : atoms -> inU (buckets ht) -> eq_auto_resize ec ht = auto_resize (eh ec) ht.
Proof.
  intros A HU. unfold eq_auto_resize, auto_resize, eq_resize, resize_hashtable. destruct (needs_resize (eh ec) ht); auto.
  destruct (get_hashtable_size _) as [n|]; auto. rewrite put_all_eq; auto.
  intros e He. rewrite concat_new in He. destruct He.
Qed.

(** The operations. *)
Definition roomy (ht : hashtable) : Prop :=
  buckets ht <> [] /\ (load_num (eh ec) * (n_keys ht + 1) <= load_den (eh ec) * n_buckets ht)%N.
Lemma store_eq ht k v : U k -> inU (buckets ht) -> atoms \/ roomy ht ->
  eq_store ec cf ht k v = hashtable_store (eh ec) cf ht k v.
Proof.
  intros Hk HU Hr. unfold eq_store, hashtable_store.
  destruct (trouble v), (emptyp k), (troublep k), (ht_ro ht); auto.
  assert (HU0 : inU (buckets (ensure (eh ec) ht))).
  { unfold ensure. destruct (n_buckets ht =? 0)%N; auto. intros e He. cbn in He. rewrite concat_new in He. destruct He. }
  rewrite hashvec_insert_eq by auto.
  destruct (hashvec_insert (eh ec) k (buckets (ensure (eh ec) ht))) as [[[[o i] bs1] inc]|] eqn:Ei; auto.
  destruct (insert_U _ _ _ _ _ _ Hk HU0 Ei) as (H1 & L1 & Hi).
  match goal with |- (do newv <- ?x; _) = _ => destruct x as [newv|]; auto end.
  destruct (write_in bs1 o i newv) as [bs2|] eqn:Ew; auto. destruct (write_U _ _ _ _ _ H1 Ew) as [H2 L2].
  destruct Hr as [A|[Hne Hr]]; [now rewrite auto_resize_eq|].
  assert (Q : needs_resize (eh ec) {| buckets := bs2; n_keys := n_keys (ensure (eh ec) ht) + inc; ht_ro := ht_ro (ensure (eh ec) ht) |} = false).
  { assert (En : ensure (eh ec) ht = ht).
    { unfold ensure, n_buckets. destruct (buckets ht); [tauto|reflexivity]. }
    rewrite En in *. unfold needs_resize, n_buckets in *. cbn [buckets n_keys]. apply N.ltb_ge. rewrite L2, L1. nia. }
  unfold eq_auto_resize, auto_resize. now rewrite Q.
Qed.
Lemma drop_eq ht k v : U k -> inU (buckets ht) -> small ht ->
  eq_drop ec cf ht k v = hashtable_drop (eh ec) cf ht k v.
Proof. intros Hk HU L. unfold eq_drop, hashtable_drop. now rewrite hashvec_get_eq. Qed.
Lemma get_eq ht k d : U k -> inU (buckets ht) -> small ht ->
  eq_get ec cf ht k d = hashtable_get (eh ec) cf ht k d.
Proof. intros Hk HU L. unfold eq_get, hashtable_get. now rewrite hashvec_get_eq. Qed.
End Eq.

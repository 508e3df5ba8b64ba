(** * File indexes: what is fetched after saves, interrupted saves, lists of keys. *)

From Coq Require Import NArith ZArith List Bool Lia Permutation ZifyBool ZifyN ZifyNat.
From Verif Require Import BytesModel BytesProofs FileIndexModel FileIndexProofs.
Import ListNotations.
Local Open Scope N_scope.

Section Props.

Variable L : Type.
Variable leq : L -> L -> bool.
Variable hash : L -> N.
Variable enc : L -> bytes.
Variable dec : bytes -> option (L * bytes).
Variable n : N.
Variable redundant : L -> bool.

(** What is assumed of the values: LISP_EQUAL is an equivalence, equal values have one hash
    code, and what is written is read back. *)
Record setting : Prop := {
  s_refl : forall a, leq a a = true;
  s_sym : forall a b, leq a b = true -> leq b a = true;
  s_trans : forall a b c, leq a b = true -> leq b c = true -> leq a c = true;
  s_hash : forall a b, leq a b = true -> hash a = hash b;
  s_codec : forall x r, dec (enc x ++ r) = Some (x, r);
  s_slots : 3 <= n }.

Notation save := (FileIndexModel.save L leq hash enc dec n redundant).
Notation save_data := (FileIndexModel.save_data L leq hash enc dec n redundant).
Notation fetch := (FileIndexModel.fetch L leq hash dec n redundant).
Notation fetchn1 := (FileIndexModel.fetchn1 L leq hash dec n redundant).
Notation commits := (FileIndexModel.commits L).

Definition differ (a b : L) : Prop := leq a b = false.
Definition is_in (v : L) (l : list L) : bool := existsb (leq v) l.
Definition lookup (k : L) (l : list (L * list L)) : option (list L) :=
  match find (fun kv => leq k (fst kv)) l with Some kv => Some (snd kv) | None => None end.
Definition keys_of (c : commits) : list L := map fst (c_adds L c ++ c_stores L c ++ c_drops L c).

(** A save as the theorems take it: no key twice, no addition without values, no dropped key
    in the caches, none that is redundant. *)
Definition plain (c : commits) (cached adds : L -> option (list L)) : Prop :=
  ForallOrdPairs differ (keys_of c) /\
  (forall k v, In (k, v) (c_adds L c) -> v <> []) /\
  (forall k v, In (k, v) (c_drops L c) -> cached k = None /\ adds k = None /\ redundant k = false).

(** The files that come from kno_make_fileindex by successful saves, with what was saved (the
    last first). *)
Inductive history : list commits -> bytes -> Prop :=
| h_new magic : flen (make_file n magic) < 2 ^ 32 -> history [] (make_file n magic)
| h_save h f c cached adds left f' : history h f -> plain c cached adds ->
    save cached adds left f c = Ok f' -> flen f' < 2 ^ 32 -> history (c :: h) f'.

(** Whether a key is to have a value. *)
Fixpoint has (h : list commits) (k v : L) : bool :=
  match h with
  | [] => false
  | c :: r =>
    match lookup k (c_adds L c) with
    | Some l => is_in v l || has r k v
    | None =>
      match lookup k (c_stores L c) with
      | Some l => is_in v l
      | None =>
        match lookup k (c_drops L c) with
        | Some l => has r k v && negb (is_in v l)
        | None => has r k v
        end
      end
    end
  end.
(** The slot of the i-th probe for a key. *)
Definition nth_probe (k : L) (i : N) : N := (hash k mod n + i * (hash k mod (n - 2) + 1)) mod n.
(** The slots which a fetch looks at are all in use. *)
Definition probes_used (f : bytes) (k : L) : Prop :=
  forall i, i <= 257 -> exists o, get_offset f (nth_probe k i) = Some o /\ o <> 0.

(** ** Preparations *)

Section With.
Hypothesis ST : setting.
Let rf := s_refl ST.
Let sy := s_sym ST.
Let tr := s_trans ST.
Let hs := s_hash ST.
Let cd := s_codec ST.
Let ns := s_slots ST.

Notation wf := (FileIndexProofs.wf L leq hash enc n).
Notation value := (FileIndexProofs.value L leq enc n).
Notation spec := (FileIndexProofs.spec L leq).
Notation file := FileIndexProofs.file.

Lemma op_op A (R : A -> A -> Prop) l : ForallOrdPairs R l -> ordpairs R l.
Proof.
  intros H. induction H as [|a l H1 H2 IH]; constructor; [|exact IH].
  intros y Hy. rewrite Forall_forall in H1. apply H1. exact Hy.
Qed.
Lemma op_op' A (R : A -> A -> Prop) l : ordpairs R l -> ForallOrdPairs R l.
Proof.
  intros H. induction H as [|a l H1 IH]; constructor; [|exact IHIH].
  apply Forall_forall. exact H1.
Qed.

Lemma is_in_l v v' l : leq v v' = true -> is_in v l = is_in v' l.
Proof.
  intros E. unfold is_in. induction l as [|x l IH]; [reflexivity|]. cbn [existsb]. rewrite IH. f_equal.
  destruct (leq v x) eqn:A, (leq v' x) eqn:B; try reflexivity.
  - rewrite (tr v' v x (sy _ _ E) A) in B. discriminate B.
  - rewrite (tr v v' x E B) in A. discriminate A.
Qed.
Lemma is_in_filter v l (f : L -> bool) : (forall a b, leq a b = true -> f a = f b) ->
  is_in v (filter f l) = is_in v l && f v.
Proof.
  intros H. unfold is_in. induction l as [|x l IH]; [reflexivity|]. cbn [filter existsb].
  destruct (leq v x) eqn:E.
  - rewrite (H _ _ E). destruct (f x) eqn:F; cbn [existsb]; [rewrite E; reflexivity|].
    rewrite IH, (H _ _ E), F, andb_false_r. reflexivity.
  - destruct (f x); cbn [existsb]; rewrite ?E; exact IH.
Qed.
Lemma is_in_add1 v s x : is_in v (add1 L leq s x) = is_in v s || leq v x.
Proof.
  unfold add1. destruct (mem L leq x s) eqn:E.
  - destruct (leq v x) eqn:F; [|rewrite orb_false_r; reflexivity]. rewrite orb_true_r, (is_in_l v x s F). exact E.
  - unfold is_in. rewrite existsb_app. cbn [existsb]. rewrite orb_false_r. reflexivity.
Qed.
Lemma is_in_fold v l : forall s, is_in v (fold_left (add1 L leq) l s) = is_in v s || is_in v l.
Proof.
  induction l as [|x l IH]; intros s; cbn [fold_left]; [rewrite orb_false_r; reflexivity|].
  rewrite IH, is_in_add1. unfold is_in at 4. cbn [existsb]. rewrite orb_assoc. reflexivity.
Qed.
Lemma is_in_choice v l : is_in v (choice_of L leq l) = is_in v l.
Proof. unfold choice_of. rewrite is_in_fold. reflexivity. Qed.
Lemma add1_op s x : ForallOrdPairs differ s -> ForallOrdPairs differ (add1 L leq s x).
Proof.
  intros H. unfold add1. destruct (mem L leq x s) eqn:E; [exact H|].
  induction H as [|a l H1 H2 IH]; [constructor; [constructor|constructor]|].
  cbn [app]. unfold mem in E. cbn [existsb] in E. apply orb_false_iff in E. destruct E as [E1 E2].
  constructor; [|apply IH; exact E2]. apply Forall_app. split; [exact H1|]. constructor; [|constructor].
  unfold differ. destruct (leq a x) eqn:F; [|reflexivity]. rewrite (sy _ _ F) in E1. discriminate E1.
Qed.
Lemma choice_op l : ForallOrdPairs differ (choice_of L leq l).
Proof.
  unfold choice_of. assert (G : forall l s, ForallOrdPairs differ s -> ForallOrdPairs differ (fold_left (add1 L leq) l s)).
  { induction l0 as [|x l0 IH]; intros s H; [exact H|]. cbn [fold_left]. apply IH. apply add1_op. exact H. }
  apply G. constructor.
Qed.
Lemma choice_len l : (length (choice_of L leq l) <= length l)%nat.
Proof.
  unfold choice_of. assert (G : forall l s, (length (fold_left (add1 L leq) l s) <= length s + length l)%nat).
  { induction l0 as [|x l0 IH]; intros s; cbn [fold_left length]; [lia|]. specialize (IH (add1 L leq s x)).
    unfold add1 in *. destruct (mem L leq x s); [lia|]. rewrite app_length in IH. cbn [length] in IH. lia. }
  apply (G l []).
Qed.

Lemma plain_distinct c cached adds : plain c cached adds -> distinct L leq c.
Proof. intros [H _]. apply op_op. exact H. Qed.

Lemma has_spec c h k v l : (forall v, is_in v l = has h k v) -> is_in v (spec c k l) = has (c :: h) k v.
Proof.
  intros H. cbn [has]. unfold FileIndexProofs.spec.
  change (FileIndexProofs.assoc L leq) with lookup.
  destruct (lookup k (c_adds L c)) as [a|].
  - unfold is_in at 1. rewrite existsb_app. f_equal. apply H.
  - destruct (lookup k (c_stores L c)) as [a|]; [reflexivity|].
    destruct (lookup k (c_drops L c)) as [a|]; [|apply H].
    unfold minus. rewrite (is_in_filter v _ (fun x => negb (mem L leq x a))).
    + rewrite is_in_choice, H. reflexivity.
    + intros x y E. f_equal. exact (is_in_l x y a E).
Qed.

Lemma history_ok h f : history h f -> exists p, f = file p /\ wf p /\
  (forall k, exists l, value p k l /\ forall v, is_in v l = has h k v) /\
  (forall k, entry L leq enc n p k <-> exists c x, In c h /\ In x (keys_of c) /\ leq k x = true).
Proof.
  intros H. induction H as [magic B|h f c cached adds left f' H IH P E B].
  - exists (p0 n magic). split; [apply make_file_p0|]. split; [apply p0_wf; assumption|]. split.
    + intros k. exists []. split; [apply p0_value|]. reflexivity.
    + intros k. split.
      * intros [s [k' [l [_ [_ [X _]]]]]]. rewrite p0_slot in X. contradiction.
      * intros [c [x [[] _]]].
  - destruct IH as [p [-> [W [V En]]]].
    destruct (save_ok L leq hash enc dec n redundant rf sy tr hs cd ns p c cached adds left f' W
                (plain_distinct _ _ _ P) (proj1 (proj2 P)) (proj2 (proj2 P)) E B) as [p' [-> [W' [V' En']]]].
    exists p'. split; [reflexivity|]. split; [exact W'|]. split.
    + intros k. destruct (V k) as [l [Vl Hl]]. exists (spec c k l). split; [apply V'; exact Vl|].
      intros v. apply has_spec. exact Hl.
    + intros k. rewrite En', En. split.
      * intros [[c1 [x [A1 [A2 A3]]]]|[x [A1 A2]]].
        -- exists c1, x. split; [right; exact A1|]. split; assumption.
        -- exists c, x. split; [left; reflexivity|]. split; assumption.
      * intros [c1 [x [[<-|A1] [A2 A3]]]].
        -- right. exists x. split; assumption.
        -- left. exists c1, x. repeat split; assumption.
Qed.

Lemma other_used p k s : wf p -> other L leq enc n p k s -> exists o, get_offset (file p) s = Some o /\ o <> 0.
Proof.
  intros W [k' [l [[A [B _]] _]]]. exists (slot p s). split; [|exact B].
  apply (get_slot L enc dec n cd ns); [|exact A]. apply W.
Qed.

(** ** C66 to C69

    What is fetched after any sequence of saves. *)
Theorem C66_fetch h f k : history h f -> redundant k = false ->
  (exists s, fetch f k = Ok s /\ (forall v, is_in v s = has h k v) /\ ForallOrdPairs differ s) \/
  (fetch f k = Overflow /\ probes_used f k).
Proof.
  intros H R. destruct (history_ok h f H) as [p [-> [W [V _]]]]. destruct (V k) as [l [Vl Hl]].
  destruct (fetch_ok L leq hash enc dec n redundant rf sy tr hs cd ns p k l W Vl R) as [E|[E O]].
  - left. exists (choice_of L leq l). split; [exact E|]. split; [|apply choice_op].
    intros v. rewrite is_in_choice. apply Hl.
  - right. split; [exact E|]. intros i Hi. apply (other_used p k); [exact W|]. exact (O i Hi).
Qed.

(** Fetching many keys at once, for a key that is not in the cache; [adds] are its pending
    additions. *)
Theorem C66_fetchn h f k adds left s : history h f -> redundant k = false ->
  fetchn1 f None adds left k = Ok s ->
  (forall v, is_in v s = has h k v || is_in v (match adds with Some a => a | None => [] end)) \/
  (s = [] /\ forall v, has h k v = false).
Proof.
  intros H R E. destruct (history_ok h f H) as [p [-> [W [V _]]]]. destruct (V k) as [l [Vl Hl]].
  unfold FileIndexModel.fetchn1 in E. rewrite R in E. rewrite <- (probe_0 L leq hash enc dec n redundant rf sy tr hs cd ns) in E.
  pose proof (fetchn_loop_ok L leq hash enc dec n redundant rf sy tr hs cd ns p k l adds W Vl left 0) as F.
  cbv zeta in F. rewrite E in F. destruct F as [F|[F|[F1 F2]]]; [intros i Hi; lia|discriminate F| |].
  - left. injection F as ->. intros v. rewrite is_in_fold, orb_comm, Hl. reflexivity.
  - right. injection F2 as ->. split; [reflexivity|]. intros v. rewrite <- Hl, F1. reflexivity.
Qed.

(** What comes behind the data changes nothing. *)
Theorem C67_append h f g k : history h f -> flen (f ++ g) < 2 ^ 32 -> fetch (f ++ g) k = fetch f k.
Proof.
  intros H B. destruct (history_ok h f H) as [p [-> [W [V _]]]]. destruct (V k) as [l [Vl _]].
  destruct (redundant k) eqn:R; [unfold FileIndexModel.fetch; rewrite R; reflexivity|].
  pose proof (wf_ext L leq hash enc dec n redundant rf sy tr hs cd ns p g W B) as W'.
  rewrite <- file_ext in *.
  pose proof (value_ext L leq hash enc dec n redundant rf sy tr hs cd ns p g k l W Vl) as Vl'.
  destruct (fetch_ok L leq hash enc dec n redundant rf sy tr hs cd ns p k l W Vl R) as [E|[E O]].
  - destruct (fetch_ok L leq hash enc dec n redundant rf sy tr hs cd ns _ k l W' Vl' R) as [E'|[E' O']]; [congruence|].
    exfalso. rewrite (fetch_over L leq hash enc dec n redundant rf sy tr hs cd ns p k W R) in E; [discriminate E|].
    intros i Hi. destruct (O' i Hi) as [k' [l' [A A']]]. exists k', l'. split; [|exact A'].
    apply (holds_ext_inv L leq hash enc dec n redundant rf sy tr hs cd ns p g); [exact (wf_slot _ _ _ _ _ _ W)|exact A].
  - rewrite E. apply (fetch_over L leq hash enc dec n redundant rf sy tr hs cd ns _ k W' R).
    intros i Hi. apply (other_ext L leq hash enc dec n redundant rf sy tr hs cd ns). apply O. exact Hi.
Qed.

(** A save up to the writing of the offsets appends to the file. *)
Theorem C67_data_appended h f c cached adds left f4 es : history h f -> plain c cached adds ->
  save_data cached adds left f c = Ok (f4, es) -> flen f4 < 2 ^ 32 -> exists g, f4 = f ++ g.
Proof.
  intros H P E B. destruct (history_ok h f H) as [p [-> [W _]]].
  destruct (save_data_ok L leq hash enc dec n redundant rf sy tr hs cd ns p c cached adds left f4 es W
              (plain_distinct _ _ _ P) (proj1 (proj2 P)) (proj2 (proj2 P)) E B) as [g [-> _]].
  exists g. apply file_ext.
Qed.
(** Stopped there, or before, it changes nothing. *)
Theorem C67_before_offsets h f c cached adds left f4 es i k : history h f -> plain c cached adds ->
  save_data cached adds left f c = Ok (f4, es) -> flen f4 < 2 ^ 32 -> (length f <= i)%nat ->
  fetch (firstn i f4) k = fetch f k.
Proof.
  intros H P E B Hi. destruct (C67_data_appended h f c cached adds left f4 es H P E B) as [g ->].
  rewrite firstn_app, firstn_all2 by exact Hi. apply (C67_append h); [exact H|].
  unfold flen in *. rewrite app_length in *. rewrite firstn_length. lia.
Qed.
(** Stopped after any number of offsets, each key has its values of before or of after. *)
Theorem C67_between_offsets h f c cached adds left f4 es i k : history h f -> plain c cached adds ->
  save_data cached adds left f c = Ok (f4, es) -> flen f4 < 2 ^ 32 -> redundant k = false ->
  let r := fetch (fold_left (write_offset L) (firstn i (qsort (kd_pos L) es)) f4) k in
  r = Overflow \/
  exists s, r = Ok s /\ ((forall v, is_in v s = has h k v) \/ (forall v, is_in v s = has (c :: h) k v)).
Proof.
  intros H P E B R. destruct (history_ok h f H) as [p [-> [W [V _]]]]. destruct (V k) as [l [Vl Hl]].
  destruct (save_torn L leq hash enc dec n redundant rf sy tr hs cd ns p c cached adds left f4 es i k l W
              (plain_distinct _ _ _ P) (proj1 (proj2 P)) (proj2 (proj2 P)) E B R Vl) as [X|[X|X]]; cbv zeta; rewrite X.
  - right. eexists. split; [reflexivity|]. left. intros v. rewrite is_in_choice. apply Hl.
  - right. eexists. split; [reflexivity|]. right. intros v. rewrite is_in_choice. apply has_spec. exact Hl.
  - left. reflexivity.
Qed.
(** Whatever has become of the head and whatever has been appended: the rollback file brings
    the file back as it was. *)
Theorem C67_rollback h f head g : history h f -> length head = N.to_nat (8 + 4 * n) ->
  apply_head (save_head n f) (head ++ skipn (N.to_nat (8 + 4 * n)) f ++ g) = Some f.
Proof.
  intros H Hh. destruct (history_ok h f H) as [p [-> [W _]]].
  pose proof (file_len n ns p (wf_shape _ _ _ _ _ _ W)) as FL. pose proof (wf_len _ _ _ _ _ _ W) as B.
  unfold flen in *. apply (apply_save L enc dec n cd ns).
  - lia.
  - lia.
  - rewrite !app_length, skipn_length. lia.
  - replace (length (file p)) with (length head + (length (file p) - N.to_nat (8 + 4 * n)))%nat by lia.
    rewrite firstn_app_2, <- Hh, skipn_app, skipn_all, Nat.sub_diag. cbn [app skipn].
    rewrite firstn_app, firstn_all2 by (rewrite skipn_length; lia).
    rewrite skipn_length, Nat.sub_diag. cbn [firstn]. rewrite app_nil_r. reflexivity.
Qed.
(** A save changes the file in the head and behind its end only. *)
Theorem C67_save_changes h f c cached adds left f4 es i : history h f -> plain c cached adds ->
  save_data cached adds left f c = Ok (f4, es) -> flen f4 < 2 ^ 32 ->
  exists head g, length head = N.to_nat (8 + 4 * n) /\
  fold_left (write_offset L) (firstn i (qsort (kd_pos L) es)) f4 = head ++ skipn (N.to_nat (8 + 4 * n)) f ++ g.
Proof.
  intros H P E B. destruct (history_ok h f H) as [p [-> [W _]]].
  destruct (save_data_ok L leq hash enc dec n redundant rf sy tr hs cd ns p c cached adds left f4 es W
              (plain_distinct _ _ _ P) (proj1 (proj2 P)) (proj2 (proj2 P)) E B) as [g [-> [p' [_ [[_ [_ [w3 _]]] _]]]]].
  assert (Inc : forall d, In d (firstn i (qsort (kd_pos L) es)) -> kd_slot L d < n).
  { intros d X. apply w3. apply (Permutation_in _ (qsort_perm (kd_pos L) es)). rewrite <- (firstn_skipn i).
    apply in_or_app. left. exact X. }
  revert Inc. generalize (firstn i (qsort (kd_pos L) es)) as ds. clear w3 E B. intros ds.
  assert (Sh := wf_shape _ _ _ _ _ _ W). destruct Sh as [S1 [S2 S3]].
  assert (Sk : skipn (N.to_nat (8 + 4 * n)) (file p) = data p).
  { unfold FileIndexProofs.file. rewrite app_assoc, skipn_app, skipn_all2; rewrite app_length, words_len, S1; [|lia].
    replace (N.to_nat (8 + 4 * n) - (8 + 4 * length (offs p)))%nat with O by lia. reflexivity. }
  rewrite Sk.
  assert (G : forall ds x, (forall d, In d ds -> kd_slot L d < n) ->
    (exists head, length head = N.to_nat (8 + 4 * n) /\ x = head ++ data p ++ g) ->
    exists head, length head = N.to_nat (8 + 4 * n) /\ fold_left (write_offset L) ds x = head ++ data p ++ g).
  { induction ds0 as [|d ds0 IH]; intros x Hd [head [Hh ->]]; [exists head; split; [exact Hh|reflexivity]|].
    cbn [fold_left]. apply IH; [intros y Hy; apply Hd; right; exact Hy|].
    pose proof (Hd d (or_introl eq_refl)) as X. unfold write_offset, patch. rewrite put_4bytes_len.
    exists (firstn (N.to_nat (8 + kd_slot L d * 4)) head ++ put_4bytes (kd_pos L d) ++
            skipn (N.to_nat (8 + kd_slot L d * 4) + 4) head).
    split; [rewrite !app_length, firstn_length, skipn_length, put_4bytes_len; lia|].
    rewrite firstn_app, skipn_app. replace (_ - length head)%nat with O by lia.
    replace (_ + 4 - length head)%nat with O by lia. cbn [firstn skipn]. rewrite app_nil_r, <- !app_assoc. reflexivity. }
  intros Inc. destruct (G ds (file (ext p g)) Inc) as [head [A1 A2]].
  - exists (hd p ++ words (offs p)). split; [rewrite app_length, words_len, S1; lia|].
    rewrite file_ext. unfold FileIndexProofs.file. rewrite <- !app_assoc. reflexivity.
  - exists head, g. split; assumption.
Qed.

(** The keys that are listed. *)
Theorem C68_keys_partial h f : history h f -> exists ks, fetchkeys_file L dec n f = Some ks /\
  ForallOrdPairs differ ks /\
  forall k, is_in k ks = true <-> exists c x, In c h /\ In x (keys_of c) /\ leq k x = true.
Proof.
  intros H. destruct (history_ok h f H) as [p [-> [W [_ En]]]].
  destruct (fetchinfo_ok L leq hash enc dec n redundant rf sy tr hs cd ns p W) as [l [El [O Hl]]].
  exists (map snd l). unfold fetchkeys_file. rewrite El. split; [reflexivity|]. split; [apply op_op'; exact O|].
  intros k. rewrite <- En. unfold is_in. rewrite existsb_exists. split.
  - intros [x [X1 X2]]. apply in_map_iff in X1. destruct X1 as [[nv k'] [<- X1]]. apply Hl in X1.
    destruct X1 as [s [vs [A _]]]. exists s, k', vs. split; assumption.
  - intros [s [k' [l' [A1 A2]]]]. exists k'. split; [|exact A1]. apply in_map_iff. exists (N.of_nat (length l'), k').
    split; [reflexivity|]. apply Hl. exists s, l'. split; [exact A2|reflexivity].
Qed.
(** The sizes that are listed are no smaller than the numbers of values, and are 0 for the
    keys without values only. *)
Theorem C68_sizes_partial h f l nv k s : history h f -> fetchinfo_file L dec n f = Some l -> In (nv, k) l ->
  redundant k = false -> fetch f k = Ok s -> N.of_nat (length s) <= nv /\ (nv = 0 <-> s = []).
Proof.
  intros H E Hi R F. destruct (history_ok h f H) as [p [-> [W _]]].
  destruct (fetchinfo_ok L leq hash enc dec n redundant rf sy tr hs cd ns p W) as [l' [El [O Hl]]].
  rewrite E in El. injection El as <-. apply Hl in Hi. destruct Hi as [s' [vs [A ->]]].
  assert (V : value p k vs) by (left; exists s', k; split; [apply rf|exact A]).
  destruct (fetch_ok L leq hash enc dec n redundant rf sy tr hs cd ns p k vs W V R) as [X|[X _]]; rewrite F in X; [|discriminate X].
  injection X as ->. pose proof (choice_len vs). split; [lia|]. split.
  - intros Z. destruct vs; [reflexivity|cbn in Z; lia].
  - intros Z. destruct vs as [|v vs]; [reflexivity|]. exfalso.
    assert (Y : is_in v (choice_of L leq (v :: vs)) = true) by (rewrite is_in_choice; unfold is_in; cbn [existsb]; rewrite rf; reflexivity).
    rewrite Z in Y. discriminate Y.
Qed.
(** Saves without drops come to an end. *)
Theorem C69_save_ends_partial h f c cached adds left : history h f -> c_drops L c = [] ->
  flen (fst (commit_vals L enc f (N.of_nat (length (c_adds L c))) (c_stores L c))) < 2 ^ 32 ->
  (exists f', save cached adds left f c = Ok f') \/ save cached adds left f c = Overflow.
Proof.
  intros H D B. destruct (history_ok h f H) as [p [-> [W _]]].
  exact (save_total L leq hash enc dec n redundant rf sy tr hs cd ns p c cached adds left W D B).
Qed.
End With.
End Props.
Print Assumptions C66_fetch.
Print Assumptions C66_fetchn.
Print Assumptions C67_append.
Print Assumptions C67_data_appended.
Print Assumptions C67_before_offsets.
Print Assumptions C67_between_offsets.
Print Assumptions C67_rollback.
Print Assumptions C67_save_changes.
Print Assumptions C68_keys_partial.
Print Assumptions C68_sizes_partial.
Print Assumptions C69_save_ends_partial.

(** ** Cases

    Keys and values are numbers, written in unary; equal if they are the same. *)

Definition uenc (x : N) : bytes := repeat 1 (N.to_nat x) ++ [0].
Fixpoint udec (b : bytes) : option (N * bytes) :=
  match b with
  | [] => None
  | 0 :: r => Some (0, r)
  | _ :: r => match udec r with Some (x, r') => Some (x + 1, r') | None => None end
  end.
Definition id (k : N) : N := k.
Definition zero (k : N) : N := 0.
Definition never (k : N) : bool := false.
Definition no (k : N) : option (list N) := None.
Definition C (a s d : list (N * list N)) : commits N := {| c_adds := a; c_stores := s; c_drops := d |}.

Lemma u_setting hash m : 3 <= m -> setting N N.eqb hash uenc udec m.
Proof.
  intros H. constructor.
  - apply N.eqb_refl.
  - intros a b E. apply N.eqb_eq in E. subst. apply N.eqb_refl.
  - intros a b c E F. apply N.eqb_eq in E. apply N.eqb_eq in F. subst. apply N.eqb_refl.
  - intros a b E. apply N.eqb_eq in E. subst. reflexivity.
  - intros x r. unfold uenc. rewrite <- (N2Nat.id x) at 2. generalize (N.to_nat x) as i.
    induction i as [|i IH]; [reflexivity|]. cbn [repeat app udec]. cbn [repeat app] in IH. rewrite IH.
    f_equal. f_equal. lia.
  - exact H.
Qed.

Definition save7 := save N N.eqb id uenc udec 7 never no no 20.
Definition fetch7 := fetch N N.eqb id udec 7 never.
Definition done (o : out bytes) : bytes := match o with Ok f => f | _ => [] end.
Definition c1 := C [(1, [2; 3]); (8, [4])] [(2, [5])] [].
Definition c2 := C [(8, [4; 6])] [(3, [1])] [(1, [2])].
Definition f0 := make_file 7 0x90e0418.
Definition f1 := done (save7 f0 c1).
Definition f2 := done (save7 f1 c2).

Ltac op := repeat (constructor; [repeat (constructor; [reflexivity|]); constructor|]); constructor.
Lemma f1_history : history N N.eqb id uenc udec 7 never [c1] f1.
Proof.
  apply (h_save N N.eqb id uenc udec 7 never [] f0 c1 no no 20 f1).
  - apply h_new. vm_compute. reflexivity.
  - split; [op|]. split; [|intros k v []]. intros k v [E|[E|[]]]; injection E as <- <-; discriminate.
  - vm_compute. reflexivity.
  - vm_compute. reflexivity.
Qed.
Lemma f2_history : history N N.eqb id uenc udec 7 never [c2; c1] f2.
Proof.
  apply (h_save N N.eqb id uenc udec 7 never [c1] f1 c2 no no 20 f2).
  - exact f1_history.
  - split; [op|]. split.
    + intros k v [E|[]]; injection E as <- <-; discriminate.
    + intros k v [E|[]]; injection E as <- <-. repeat split.
  - vm_compute. reflexivity.
  - vm_compute. reflexivity.
Qed.

(** Two saves into 7 slots; 1 and 8 have the same first slot; a value of 1 is dropped, 8 is
    given 4 again and 6. *)
Example C66_fetch_case : history N N.eqb id uenc udec 7 never [c2; c1] f2 /\
  map (fetch7 f2) [0; 1; 2; 3; 8] = [Ok []; Ok [3]; Ok [5]; Ok [1]; Ok [4; 6]] /\
  map (fun k => map (has N N.eqb [c2; c1] k) [1; 2; 3; 4; 5; 6]) [1; 8] =
  [[false; false; true; false; false; false]; [false; false; false; true; false; true]].
Proof. split; [exact f2_history|]. split; vm_compute; reflexivity. Qed.
Example C66_fetchn_case :
  fetchn1 N N.eqb id udec 7 never f2 None (Some [9]) 20 8 = Ok [9; 4; 6].
Proof. vm_compute. reflexivity. Qed.

Example C67_append_case : fetch7 (f2 ++ [1; 2; 3]) 8 = Ok [4; 6].
Proof. vm_compute. reflexivity. Qed.
Definition sd := save_data N N.eqb id uenc udec 7 never no no 20 f1 c2.
(** The second save has three offsets to write: after one of them 8 has its new values, after
    two 3 as well. *)
Definition sd4 : bytes := match sd with Ok (f, _) => f | _ => [] end.
Definition sdes : list (keydata N) := match sd with Ok (_, es) => es | _ => [] end.
Example C67_before_offsets_case : sd = Ok (sd4, sdes) /\ length sdes = 3%nat /\
  map (fetch7 sd4) [1; 3; 8] = [Ok [2; 3]; Ok []; Ok [4]].
Proof. (split; [vm_compute; reflexivity|]); (split; [vm_compute; reflexivity|]); vm_compute; reflexivity. Qed.
Example C67_between_offsets_case :
  map (fetch7 (fold_left (write_offset N) (firstn 1 (qsort (kd_pos N) sdes)) sd4)) [1; 3; 8] = [Ok [2; 3]; Ok []; Ok [4; 6]] /\
  map (fetch7 (fold_left (write_offset N) (firstn 2 (qsort (kd_pos N) sdes)) sd4)) [1; 3; 8] = [Ok [2; 3]; Ok [1]; Ok [4; 6]] /\
  write_offsets N sd4 sdes = f2.
Proof. (split; [vm_compute; reflexivity|]); (split; [vm_compute; reflexivity|]); vm_compute; reflexivity. Qed.
Example C67_rollback_case :
  apply_head (save_head 7 f1) f2 = Some f1 /\ firstn 36 f2 <> firstn 36 f1.
Proof. split; [vm_compute; reflexivity|]. vm_compute. discriminate. Qed.
Example C67_save_changes_case :
  skipn 36 f2 = skipn 36 f1 ++ skipn (length f1) f2 /\ length (skipn (length f1) f2) = 73%nat.
Proof. split; vm_compute; reflexivity. Qed.

Example C68_keys_partial_case : fetchkeys_file N udec 7 f2 = Some [2; 8; 3; 1].
Proof. vm_compute. reflexivity. Qed.
Example C68_sizes_partial_case : fetchinfo_file N udec 7 f1 = Some [(2, 1); (1, 8); (1, 2)].
Proof. vm_compute. reflexivity. Qed.
Example C69_save_ends_partial_case : save7 f1 (C [(5, [6])] [(1, [])] []) <> Overflow.
Proof. vm_compute. discriminate. Qed.

(** ** What does not hold *)

(** C68.  The sizes are the numbers of the values: false.  8 was given the value 4 twice. *)
Theorem C68_sizes_count_refuted : exists h f l nv k s,
  history N N.eqb id uenc udec 7 never h f /\ fetchinfo_file N udec 7 f = Some l /\ In (nv, k) l /\
  fetch7 f k = Ok s /\ nv <> N.of_nat (length s).
Proof.
  exists [c2; c1], f2, [(1, 2); (3, 8); (1, 3); (1, 1)], 3, 8, [4; 6].
  split; [exact f2_history|]. split; [vm_compute; reflexivity|]. split; [cbn; auto|].
  split; [vm_compute; reflexivity|discriminate].
Qed.
Print Assumptions C68_sizes_count_refuted.

(** The keys that are listed have values: false.  The only value is dropped, the key stays. *)
Definition c3 := C [] [] [(2, [5])].
Definition f3 := done (save7 f2 c3).
Lemma f3_history : history N N.eqb id uenc udec 7 never [c3; c2; c1] f3.
Proof.
  apply (h_save N N.eqb id uenc udec 7 never [c2; c1] f2 c3 no no 20 f3).
  - exact f2_history.
  - split; [op|]. split; [intros k v []|]. intros k v [E|[]]; injection E as <- <-. repeat split.
  - vm_compute. reflexivity.
  - vm_compute. reflexivity.
Qed.
Theorem C68_keys_have_values_refuted : exists h f ks k,
  history N N.eqb id uenc udec 7 never h f /\ fetchkeys_file N udec 7 f = Some ks /\ In k ks /\ fetch7 f k = Ok [].
Proof.
  exists [c3; c2; c1], f3, [8; 3; 1; 2], 2. split; [exact f3_history|].
  split; [vm_compute; reflexivity|]. split; [cbn; auto|]. vm_compute. reflexivity.
Qed.
Print Assumptions C68_keys_have_values_refuted.

(** fileindex_fetchsize gives the number of values: false.  An absent key has 13, a key that
    is not in its first slot has 61 (8 is behind 1). *)
Theorem C68_fetchsize_refuted : exists h f,
  history N N.eqb id uenc udec 7 never h f /\
  fetch7 f 0 = Ok [] /\ fetchsize N N.eqb id udec 7 f 0 = Some 13 /\
  fetch7 f 8 = Ok [4] /\ fetchsize N N.eqb id udec 7 f 8 = Some 61.
Proof. exists [c1], f1. split; [exact f1_history|]. (split; [vm_compute; reflexivity|]); (split; [vm_compute; reflexivity|]); (split; [vm_compute; reflexivity|]); vm_compute; reflexivity. Qed.
Print Assumptions C68_fetchsize_refuted.

(** After the keys (or the sizes) have been listed, the index can be used: false.  The lock
    is not released, and every fetch of a key, every other list, waits for ever. *)
Theorem C68_lock_refuted : forall L leq hash dec n redundant ix l ix' k,
  fetchkeys_op L dec n ix = Some (l, ix') -> redundant k = false ->
  fetch_op L leq hash dec n redundant ix' k = None /\ fetchkeys_op L dec n ix' = None /\
  fetchinfo_op L dec n ix' = None.
Proof.
  intros L leq hash dec n redundant ix l ix' k E R. unfold fetchkeys_op in E. destruct (ix_locked ix); [discriminate E|].
  injection E as <- <-. unfold fetch_op, fetchkeys_op, fetchinfo_op. rewrite R. cbn. repeat split.
Qed.
Print Assumptions C68_lock_refuted.
Example C68_lock_refuted_case : exists ix',
  fetchkeys_op N udec 7 {| ix_file := f1; ix_locked := false |} = Some (Some [1; 8; 2], ix').
Proof. eexists. vm_compute. reflexivity. Qed.

(** C69.  A key both added to and stored in one save has the values stored: false for a new
    key, which gets two slots, and the first is that of the addition. *)
Theorem C69_add_and_store_refuted : exists f c k f',
  f = make_file 7 0x90e0418 /\ In (k, [3]) (c_stores N c) /\ save7 f c = Ok f' /\ fetch7 f' k = Ok [2].
Proof.
  exists f0, (C [(1, [2])] [(1, [3])] []), 1, (done (save7 f0 (C [(1, [2])] [(1, [3])] []))).
  split; [reflexivity|]. split; [left; reflexivity|]. split; vm_compute; reflexivity.
Qed.
Print Assumptions C69_add_and_store_refuted.

(** A key with an addition and a drop of another value has the value added: false when it
    has an entry without values; the pending additions are then not seen. *)
Definition pending (k : N) : option (list N) := if k =? 1 then Some [4] else None.
Theorem C69_add_and_drop_refuted : exists h f f',
  history N N.eqb id uenc udec 7 never h f /\
  save N N.eqb id uenc udec 7 never no pending 20 f (C [(1, [4])] [] [(1, [9])]) = Ok f' /\ fetch7 f' 1 = Ok [].
Proof.
  set (f := done (save7 f0 (C [] [(1, [])] []))).
  exists [C [] [(1, [])] []], f, (done (save N N.eqb id uenc udec 7 never no pending 20 f (C [(1, [4])] [] [(1, [9])]))).
  split.
  - apply (h_save N N.eqb id uenc udec 7 never [] f0 _ no no 20).
    + apply h_new. vm_compute. reflexivity.
    + split; [op|]. split; intros k v [].
    + vm_compute. reflexivity.
    + vm_compute. reflexivity.
  - split; vm_compute; reflexivity.
Qed.
Print Assumptions C69_add_and_drop_refuted.

(** Fetching many keys comes to an end: false when all slots that are probed are in use by
    other keys; so does a save with a drop of such a key. *)
Definition fetch3 := fetch N N.eqb id udec 3 never.
Definition c4 := C [(0, [2]); (1, [3]); (2, [4])] [] [].
Definition f4 := done (save N N.eqb id uenc udec 3 never no no 20 (make_file 3 0x90e0418) c4).
Lemma f4_history : history N N.eqb id uenc udec 3 never [c4] f4.
Proof.
  apply (h_save N N.eqb id uenc udec 3 never [] (make_file 3 0x90e0418) c4 no no 20 f4).
  - apply h_new. vm_compute. reflexivity.
  - split; [op|]. split; [|intros k v []]. intros k v [E|[E|[E|[]]]]; injection E as <- <-; discriminate.
  - vm_compute. reflexivity.
  - vm_compute. reflexivity.
Qed.
Lemma f4_stuck : forall left s, s = 0 \/ s = 1 \/ s = 2 ->
  fetchn_loop N N.eqb id udec 3 f4 5 None left s = Stuck.
Proof.
  assert (E0 : get_offset f4 0 = Some 72) by (vm_compute; reflexivity).
  assert (E1 : get_offset f4 1 = Some 81) by (vm_compute; reflexivity).
  assert (E2 : get_offset f4 2 = Some 91) by (vm_compute; reflexivity).
  assert (R0 : read_entry N udec f4 (72 + po 3) = Some (1, 48, 0)) by (vm_compute; reflexivity).
  assert (R1 : read_entry N udec f4 (81 + po 3) = Some (1, 55, 1)) by (vm_compute; reflexivity).
  assert (R2 : read_entry N udec f4 (91 + po 3) = Some (1, 63, 2)) by (vm_compute; reflexivity).
  assert (W : forall s, next_slot 3 s (width N id 3 5) = (s + 1) mod 3) by reflexivity.
  generalize dependent f4. intros f E0 E1 E2 R0 R1 R2.
  induction left as [|left IH]; intros s Hs; [reflexivity|].
  destruct Hs as [->|[->| ->]]; cbn [fetchn_loop]; rewrite ?E0, ?E1, ?E2, ?R0, ?R1, ?R2; apply IH; rewrite W; cbn; auto.
Qed.
Theorem C69_fetchn_ends_refuted : exists h f k,
  history N N.eqb id uenc udec 3 never h f /\
  forall left, fetchn1 N N.eqb id udec 3 never f None None left k = Stuck.
Proof.
  exists [c4], f4, 5. split; [exact f4_history|]. intros left. apply (f4_stuck left (first_slot N id 3 5)). vm_compute. auto.
Qed.
Print Assumptions C69_fetchn_ends_refuted.
Theorem C69_drop_ends_refuted : exists h f c,
  history N N.eqb id uenc udec 3 never h f /\ plain N N.eqb never c no no /\
  forall left, save N N.eqb id uenc udec 3 never no no left f c = Stuck.
Proof.
  exists [c4], f4, (C [] [] [(5, [1])]). split; [exact f4_history|]. split.
  - split; [op|]. split; [intros k v []|]. intros k v [E|[]]; injection E as <- <-. repeat split.
  - intros left. unfold save, save_data. cbn [c_adds c_stores c_drops C commit_vals drop_vals].
    unfold fetchn1, never, no. rewrite (f4_stuck left (first_slot N id 3 5)) by (vm_compute; auto). reflexivity.
Qed.
Print Assumptions C69_drop_ends_refuted.

(** Every key that is saved can be fetched, and a save succeeds while slots are free: false.
    259 keys with one hash code go into 300 slots in one save; then one of them is not
    found, and another key with that hash code cannot be added. *)
Definition keys259 : list N := map N.of_nat (seq 0 259).
Definition c259 := C (map (fun k => (k, [0])) keys259) [] [].

Lemma keys259_in k : In k keys259 <-> k < 259.
Proof.
  unfold keys259. rewrite in_map_iff. split.
  - intros [i [<- Hi]]. apply in_seq in Hi. lia.
  - intros H. exists (N.to_nat k). split; [lia|]. apply in_seq. lia.
Qed.
Lemma seq_op : forall m s, ForallOrdPairs (differ N N.eqb) (map N.of_nat (seq s m)).
Proof.
  induction m as [|m IH]; intros s; [constructor|]. cbn [seq map]. constructor; [|apply IH].
  apply Forall_forall. intros x Hx. apply in_map_iff in Hx. destruct Hx as [i [<- Hi]]. apply in_seq in Hi.
  unfold differ. apply N.eqb_neq. lia.
Qed.
Lemma c259_adds : c_adds N c259 = map (fun k => (k, [0])) keys259.
Proof. reflexivity. Qed.
Lemma c259_keys : keys_of N c259 = keys259.
Proof.
  unfold keys_of. rewrite c259_adds. cbn [c259 C c_stores c_drops app]. rewrite app_nil_r, map_map. apply map_id.
Qed.
Lemma c259_plain : plain N N.eqb never c259 no no.
Proof.
  split; [rewrite c259_keys; apply seq_op|]. split; [|intros k v []].
  intros k v H. rewrite c259_adds in H. apply in_map_iff in H. destruct H as [x [E _]]. injection E as _ <-. discriminate.
Qed.
Lemma c259_len : length (c_adds N c259) = 259%nat.
Proof. rewrite c259_adds. unfold keys259. rewrite !map_length, seq_length. reflexivity. Qed.
Opaque keys259.

Definition magic : N := 0x90e0418.
Lemma m300_len : length (make_file 300 magic) = 1248%nat.
Proof. vm_compute. reflexivity. Qed.

Lemma zero_probe k i : i < 300 -> probe N zero 300 k i = i.
Proof.
  intros H. unfold probe, first_slot, width, zero. change (0 mod 300) with 0. change (0 mod (300 - 2)) with 0.
  rewrite N.add_0_l, N.mul_1_r. apply N.mod_small. exact H.
Qed.

Lemma lookup259 k ks : In k ks -> lookup N N.eqb k (map (fun k => (k, [0])) ks) = Some [0].
Proof.
  unfold lookup. induction ks as [|x ks IH]; [intros []|]. intros H. cbn [map find fst].
  destruct (k =? x) eqn:E; [reflexivity|]. destruct H as [-> |H]; [rewrite N.eqb_refl in E; discriminate E|]. apply IH. exact H.
Qed.
Lemma offsets_grow : forall (es : list (keydata N)) f,
  (length (fold_left (write_offset N) es f) <= length f + 4 * length es)%nat.
Proof.
  induction es as [|d es IH]; intros f; cbn [fold_left length]; [lia|]. specialize (IH (write_offset N f d)).
  assert (X : (length (write_offset N f d) <= length f + 4)%nat)
    by (unfold write_offset, patch; rewrite !app_length, firstn_length, skipn_length, put_4bytes_len; lia).
  lia.
Qed.

Theorem C69_crowd_refuted : exists f k,
  history N N.eqb zero uenc udec 300 never [c259] f /\
  (In k keys259 /\ has N N.eqb [c259] k 0 = true /\ fetch N N.eqb zero udec 300 never f k = Overflow) /\
  (get_offset f 299 = Some 0 /\
   forall left, save N N.eqb zero uenc udec 300 never no no left f (C [(300, [0])] [] []) = Overflow).
Proof.
  assert (T : 3 <= 300) by lia.
  pose proof (u_setting zero 300 T) as ST. destruct ST as [rf sy tr hs cd ns].
  assert (B0 : flen (make_file 300 magic) < 2 ^ 32) by (unfold flen; rewrite m300_len; reflexivity).
  pose proof (p0_wf N N.eqb zero uenc 300 ns magic B0) as W0.
  assert (Hin : forall k v, In (k, v) (c_adds N c259) -> k < 259 /\ v = [0]).
  { intros k v H. rewrite c259_adds in H. apply in_map_iff in H. destruct H as [x [E Hx]]. injection E as <- <-.
    apply keys259_in in Hx. auto. }
  destruct (same_hash_save N N.eqb zero uenc udec 300 never rf sy tr hs cd ns (p0 300 magic) c259 0 no no 20%nat W0) as [f4' [es E]];
    try reflexivity.
  { intros s. apply p0_slot. }
  { intros X. apply (f_equal (@length _)) in X. rewrite c259_len in X. discriminate X. }
  { intros i i' H1 H2. rewrite c259_len in H2. rewrite !zero_probe by lia. lia. }
  assert (Len : (length f4' <= 1248 + 259 * 532)%nat).
  { rewrite <- m300_len, <- c259_len. rewrite (make_file_p0 300 magic).
    apply (adds_len N N.eqb zero uenc udec 300 never rf sy tr hs cd ns (p0 300 magic) c259 no no 20%nat f4' es 260); [exact W0|reflexivity|reflexivity| |exact E].
    intros k v H. apply Hin in H. destruct H as [H ->]. split.
    - unfold uenc. rewrite app_length, repeat_length. cbn [length]. lia.
    - exists 0. split; [reflexivity|]. cbn. lia. }
  assert (Sv : save N N.eqb zero uenc udec 300 never no no 20 (make_file 300 magic) c259 = Ok (write_offsets N f4' es)).
  { rewrite (make_file_p0 300 magic). unfold save. rewrite E.
    destruct (c_adds N c259) eqn:X; [|reflexivity]. exfalso. apply (f_equal (@length _)) in X. rewrite c259_len in X. discriminate X. }
  set (f := write_offsets N f4' es) in *.
  assert (Bf : flen f < 2 ^ 32).
  { destruct (save_data_ok N N.eqb zero uenc udec 300 never rf sy tr hs cd ns (p0 300 magic) c259 no no 20%nat f4' es W0) as [g [_ [p' [_ [_ [_ [Tk _]]]]]]];
      try exact E.
    - apply (plain_distinct N N.eqb never c259 no no c259_plain).
    - apply (proj1 (proj2 c259_plain)).
    - apply (proj2 (proj2 c259_plain)).
    - unfold flen. lia.
    - pose proof (offsets_grow (qsort (kd_pos N) es) f4') as G. rewrite (Permutation_length (qsort_perm (kd_pos N) es)) in G.
      assert (Y : length es = 259%nat).
      { rewrite <- (map_length (kd_key N) es), Tk. change (touched N c259) with (keys_of N c259).
        rewrite c259_keys, <- c259_len, c259_adds, map_length. reflexivity. }
      change (fold_left (write_offset N) (qsort (kd_pos N) es) f4') with f in G. unfold flen. lia. }
  assert (Hh : history N N.eqb zero uenc udec 300 never [c259] f).
  { apply (h_save N N.eqb zero uenc udec 300 never [] (make_file 300 magic) c259 no no 20 f); [apply h_new; exact B0|exact c259_plain|exact Sv|exact Bf]. }
  destruct (history_ok N N.eqb zero uenc udec 300 never (u_setting zero 300 T) [c259] f Hh) as [p [Ep [W [_ En]]]].
  assert (En' : forall k, entry N N.eqb uenc 300 p k <-> k < 259).
  { intros k. rewrite En. split.
    - intros [c [x [[<-|[]] [A B]]]]. rewrite c259_keys in A. apply keys259_in in A. apply N.eqb_eq in B. subst x. exact A.
    - intros H. exists c259, k. split; [left; reflexivity|]. rewrite c259_keys. split; [apply keys259_in; exact H|apply N.eqb_refl]. }
  destruct (crowd N N.eqb zero uenc udec 300 never rf sy tr hs cd ns p 0 keys259 W) as [k [Hk Ho]].
  { apply op_op. apply (seq_op 259 0). }
  { rewrite <- c259_keys. unfold keys_of. cbn [c259 C c_stores c_drops c_adds app]. rewrite app_nil_r, !map_length. 
    pose proof c259_len as X. rewrite c259_adds, map_length in X. lia. }
  { intros x Hx. split; [apply En'; apply keys259_in; exact Hx|reflexivity]. }
  assert (O300 : forall i, i <= 257 -> other N N.eqb uenc 300 p 300 (probe N zero 300 300 i)).
  { intros i Hi. destruct (Ho i Hi) as [k' [l [A B]]]. exists k', l. split; [exact A|].
    assert (X : k' < 259) by (apply En'; exists (probe N zero 300 k i), k', l; split; [apply N.eqb_refl|exact A]).
    apply N.eqb_neq. lia. }
  exists f, k. split; [exact Hh|]. split; [split; [exact Hk|split]|].
  - cbn [has]. rewrite c259_adds, lookup259 by exact Hk. reflexivity.
  - rewrite Ep. apply (fetch_over N N.eqb zero uenc udec 300 never rf sy tr hs cd ns p k W); [reflexivity|exact Ho].
  - split.
    + rewrite Ep. rewrite (get_slot N uenc udec 300 cd ns) by (try lia; apply W). f_equal.
      destruct (wf_slot _ _ _ _ _ _ W 299 ltac:(lia)) as [Z|[k1 [l1 H1]]]; [exact Z|exfalso].
      assert (Un : forall s s' k l l', holds N uenc 300 p s k l -> holds N uenc 300 p s' k l' -> s = s').
      { intros s s' x l l' A A'. destruct (wf_probe _ _ _ _ _ _ W _ _ _ A) as [j [-> J]].
        destruct (wf_probe _ _ _ _ _ _ W _ _ _ A') as [j' [-> J']].
        destruct (N.lt_trichotomy j j') as [X|[-> |X]]; [|reflexivity|]; exfalso.
        - destruct (J' _ X) as [x' [l2 [A2 D]]]. destruct (holds_det N N.eqb zero uenc udec 300 never rf sy tr hs cd ns _ _ _ _ _ _ A A2) as [<- _].
          rewrite N.eqb_refl in D. discriminate D.
        - destruct (J _ X) as [x' [l2 [A2 D]]]. destruct (holds_det N N.eqb zero uenc udec 300 never rf sy tr hs cd ns _ _ _ _ _ _ A' A2) as [<- _].
          rewrite N.eqb_refl in D. discriminate D. }
      assert (All : forall s, s < 300 -> exists x l, holds N uenc 300 p s x l).
      { intros s Hs. destruct (N.eq_dec s 299) as [-> |Ns]; [exists k1, l1; exact H1|].
        destruct (wf_probe _ _ _ _ _ _ W _ _ _ H1) as [j [Ej J]].
        assert (Hj : 299 <= j).
        { destruct (N.lt_ge_cases j 299) as [X|X]; [|exact X]. rewrite zero_probe in Ej by lia. lia. }
        destruct (J s ltac:(lia)) as [x [l [A _]]]. rewrite zero_probe in A by lia. exists x, l. exact A. }
      assert (Ls : forall m, (m <= 300)%nat -> exists ks, length ks = m /\ NoDup ks /\
                forall x, In x ks -> exists s l, s < N.of_nat m /\ holds N uenc 300 p s x l).
      { induction m as [|m IHm]; intros Hm; [exists []; repeat split; [constructor|intros x []]|].
        destruct IHm as [ks [A [B D]]]; [lia|]. destruct (All (N.of_nat m)) as [x [l Hx]]; [lia|].
        exists (x :: ks). split; [cbn; lia|]. split.
        - constructor; [|exact B]. intros Hi. destruct (D x Hi) as [s [l2 [Hs X]]]. pose proof (Un _ _ _ _ _ Hx X). lia.
        - intros y [<-|Hy]; [exists (N.of_nat m), l; split; [lia|exact Hx]|].
          destruct (D y Hy) as [s [l2 [Hs X]]]. exists s, l2. split; [lia|exact X]. }
      destruct (Ls 300%nat) as [ks [A [B D]]]; [lia|].
      assert (I : incl ks keys259).
      { intros x Hx. destruct (D x Hx) as [s [l [_ X]]]. apply keys259_in. apply En'. exists s, x, l. split; [apply N.eqb_refl|exact X]. }
      pose proof (NoDup_incl_length B I) as Y. rewrite A in Y.
      pose proof c259_len as X. rewrite c259_adds, map_length in X. lia.
    + intros left. rewrite Ep. apply (lone_overflow N N.eqb zero uenc udec 300 never rf sy tr hs cd ns p 300 [0]); try assumption; reflexivity.
Qed.
Print Assumptions C69_crowd_refuted.

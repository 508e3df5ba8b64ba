(** * File indexes: layout of the file, fetching, finding slots for the keys of a save. *)
From Coq Require Import NArith ZArith List Bool Lia Permutation ZifyBool ZifyN ZifyNat.
From Verif Require Import BytesModel BytesProofs FileIndexModel.
Import ListNotations.
Local Open Scope N_scope.
Local Opaque put_4bytes read_4bytes.
Local Arguments N.sub : simpl never.
Local Arguments N.to_nat : simpl never.

(** ** Lists of words *)

Definition words (l : list N) : bytes := concat (map put_4bytes l).

Lemma words_len l : length (words l) = (4 * length l)%nat.
Proof. induction l as [|x l IH]; [reflexivity|]. unfold words in *. cbn [map concat length].
  rewrite app_length, IH, put_4bytes_len. lia. Qed.
Lemma words_app a b : words (a ++ b) = words a ++ words b.
Proof. unfold words. rewrite map_app, concat_app. reflexivity. Qed.
Lemma words_skip l s : skipn (4 * s) (words l) = words (skipn s l).
Proof.
  revert s. induction l as [|x l IH]; intros [|s]; try reflexivity.
  - replace (4 * S s)%nat with (4 + 4 * s)%nat by lia. cbn [skipn]. rewrite <- IH.
    unfold words. cbn [map concat].
    rewrite skipn_app, put_4bytes_len. rewrite (skipn_all2 (put_4bytes x)) by (rewrite put_4bytes_len; lia).
    cbn [app]. f_equal. lia.
Qed.
Lemma words_first l s : firstn (4 * s) (words l) = words (firstn s l).
Proof.
  revert s. induction l as [|x l IH]; intros [|s]; try reflexivity.
  - replace (4 * S s)%nat with (4 + 4 * s)%nat by lia. cbn [firstn]. unfold words in *. cbn [map concat].
    rewrite firstn_app, put_4bytes_len. rewrite (firstn_all2 (put_4bytes x)) by (rewrite put_4bytes_len; lia).
    f_equal. rewrite <- IH. f_equal. lia.
Qed.

Definition upd (s : nat) (w : N) (l : list N) : list N := firstn s l ++ w :: skipn (S s) l.
Lemma upd_len s w l : (s < length l)%nat -> length (upd s w l) = length l.
Proof. intros H. unfold upd. rewrite app_length, firstn_length. cbn [length]. rewrite skipn_length. lia. Qed.
Lemma upd_same s w l d : (s < length l)%nat -> nth s (upd s w l) d = w.
Proof. intros H. unfold upd. rewrite app_nth2; rewrite firstn_length; [|lia].
  replace (s - Nat.min s (length l))%nat with O by lia. reflexivity. Qed.
Lemma upd_other s w l d i : (s < length l)%nat -> i <> s -> nth i (upd s w l) d = nth i l d.
Proof.
  intros H D. unfold upd. destruct (Nat.lt_ge_cases i s) as [X|X].
  - rewrite app_nth1 by (rewrite firstn_length; lia). rewrite <- (firstn_skipn s l) at 2.
    rewrite app_nth1 by (rewrite firstn_length; lia). reflexivity.
  - rewrite app_nth2 by (rewrite firstn_length; lia). rewrite firstn_length.
    replace (i - Nat.min s (length l))%nat with (S (i - s - 1)) by lia. cbn [nth].
    rewrite <- (firstn_skipn (S s) l) at 2. rewrite app_nth2 by (rewrite firstn_length; lia).
    rewrite firstn_length. f_equal. lia.
Qed.

Lemma skip_app_le {A} (a b : list A) i : (i <= length a)%nat -> skipn i (a ++ b) = skipn i a ++ b.
Proof. intros H. rewrite skipn_app. replace (i - length a)%nat with O by lia. reflexivity. Qed.
Lemma skip_app_ge {A} (a b : list A) i : (length a <= i)%nat -> skipn i (a ++ b) = skipn (i - length a) b.
Proof. intros H. rewrite skipn_app, skipn_all2 by lia. reflexivity. Qed.

(** ** Sorting *)

Lemma insert_perm {A} (key : A -> N) x l : Permutation (insert key x l) (x :: l).
Proof.
  induction l as [|y l IH]; cbn [insert]; [apply Permutation_refl|].
  destruct (key x <=? key y); [apply Permutation_refl|].
  eapply Permutation_trans; [apply perm_skip, IH|apply perm_swap].
Qed.
Lemma qsort_perm {A} (key : A -> N) l : Permutation (qsort key l) l.
Proof.
  induction l as [|x l IH]; [apply perm_nil|]. cbn [qsort fold_right].
  eapply Permutation_trans; [apply insert_perm|apply perm_skip, IH].
Qed.

(** ** Reservations *)

Definition sorted (l : list N) : Prop :=
  forall i j, (i < j < length l)%nat -> nth i l 0 < nth j l 0.

Definition point (l : list N) (s : N) (o : Z) : Prop :=
  (0 <= o <= Z.of_nat (length l))%Z /\
  (forall i, (Z.of_nat i < o)%Z -> nth i l 0 < s) /\
  (forall i, (o <= Z.of_nat i)%Z -> (i < length l)%nat -> s < nth i l 0).

Lemma bsearch_ok l s : sorted l -> forall left b t mid,
  (0 <= b)%Z -> (b <= t + 1)%Z -> (t <= Z.of_nat (length l))%Z ->
  (t - b + 1 < Z.of_nat left)%Z ->
  (forall i, (Z.of_nat i < b)%Z -> (i < length l)%nat -> nth i l 0 < s) ->
  (forall i, (t < Z.of_nat i)%Z -> (i < length l)%nat -> s < nth i l 0) ->
  (b <= t)%Z \/ ((0 <= mid < Z.of_nat (length l))%Z /\
    ((b = (mid + 1)%Z /\ nth (Z.to_nat mid) l 0 < s) \/ (b = mid /\ s < nth (Z.to_nat mid) l 0))) ->
  match bsearch left l s b t mid with
  | None => In s l
  | Some m => point l s (if ((m <? Z.of_nat (length l))%Z && (nth (Z.to_nat m) l 0 <? s))%bool then (m + 1)%Z else m)
  end.
Proof.
  intros So left. induction left as [|left IH]; intros b t mid H1 H2 H3 H4 Hlo Hhi Hm; [lia|].
  cbn [bsearch]. destruct (Z.leb_spec b t) as [X|X].
  - set (m := (b + (t - b) / 2)%Z).
    assert (Hmb : (b <= m <= t)%Z) by (unfold m; lia).
    destruct ((m <? 0) || (Z.of_nat (length l) <=? m))%Z eqn:Eo.
    + assert (Em : m = Z.of_nat (length l)) by lia.
      assert (b = Z.of_nat (length l)) by (unfold m in *; lia). clearbody m. subst m.
      rewrite Z.ltb_irrefl. cbn [andb]. split; [lia|]. split; intros i Hi; [apply Hlo; lia|lia].
    + destruct (N.eqb_spec (nth (Z.to_nat m) l 0) s) as [E|E].
      { rewrite <- E. apply nth_In. lia. }
      destruct (N.ltb_spec (nth (Z.to_nat m) l 0) s) as [Y|Y].
      * apply IH; try lia.
        -- intros i Hi Hl. destruct (Nat.eq_dec i (Z.to_nat m)) as [->|D]; [exact Y|].
           apply (N.lt_trans _ (nth (Z.to_nat m) l 0)); [|exact Y]. apply So. lia.
        -- exact Hhi.
      * apply IH; try lia.
        -- exact Hlo.
        -- intros i Hi Hl. destruct (Nat.eq_dec i (Z.to_nat m)) as [->|D]; [lia|].
           apply (N.lt_trans _ (nth (Z.to_nat m) l 0)); [lia|]. apply So. lia.
  - destruct Hm as [Hm|[Hr [[-> Hv]|[-> Hv]]]]; [lia| |].
    + destruct (Z.ltb_spec mid (Z.of_nat (length l))); [|lia].
      destruct (N.ltb_spec (nth (Z.to_nat mid) l 0) s); [|lia]. cbn [andb].
      split; [lia|]. split; intros i Hi; [apply Hlo; lia|intros Hl; apply Hhi; lia].
    + destruct (N.ltb_spec (nth (Z.to_nat mid) l 0) s); [lia|]. rewrite andb_false_r.
      split; [lia|]. split; intros i Hi; [apply Hlo; lia|intros Hl; apply Hhi; lia].
Qed.

Lemma reserve_ok l s : sorted l ->
  match reserve_slotno l s with
  | None => In s l
  | Some l' => sorted l' /\ Permutation l' (s :: l) /\ ~ In s l
  end.
Proof.
  intros So. unfold reserve_slotno. destruct (Nat.eqb_spec (length l) 0) as [E|E].
  { destruct l; [|discriminate E]. split; [intros i j H; cbn in H; lia|].
    split; [apply Permutation_refl|intros []]. }
  pose proof (bsearch_ok l s So (S (S (length l))) 0 (Z.of_nat (length l)) (Z.of_nat (length l) / 2)) as B.
  destruct (bsearch _ l s _ _ _) as [m|]; [|apply B; intros; lia].
  set (o := if ((m <? Z.of_nat (length l))%Z && (nth (Z.to_nat m) l 0 <? s))%bool then (m + 1)%Z else m) in *.
  destruct B as [Hr [Hlo Hhi]]; try (intros; lia).
  assert (Hf : length (firstn (Z.to_nat o) l) = Z.to_nat o) by (rewrite firstn_length; lia).
  assert (N1 : forall i, (i < Z.to_nat o)%nat -> nth i (firstn (Z.to_nat o) l ++ s :: skipn (Z.to_nat o) l) 0 = nth i l 0).
  { intros i Hi. rewrite app_nth1 by lia. rewrite <- (firstn_skipn (Z.to_nat o) l) at 2.
    rewrite app_nth1 by lia. reflexivity. }
  assert (N2 : nth (Z.to_nat o) (firstn (Z.to_nat o) l ++ s :: skipn (Z.to_nat o) l) 0 = s).
  { rewrite app_nth2 by lia. rewrite Hf, Nat.sub_diag. reflexivity. }
  assert (N3 : forall i, (Z.to_nat o < i)%nat -> nth i (firstn (Z.to_nat o) l ++ s :: skipn (Z.to_nat o) l) 0 = nth (i - 1) l 0).
  { intros i Hi. rewrite app_nth2 by lia. rewrite Hf. replace (i - Z.to_nat o)%nat with (S (i - 1 - Z.to_nat o)) by lia.
    cbn [nth]. rewrite <- (firstn_skipn (Z.to_nat o) l) at 2. rewrite app_nth2 by lia. rewrite Hf. reflexivity. }
  split; [|split].
  - intros i j H. rewrite app_length in H. cbn [length] in H. rewrite skipn_length in H. rewrite Hf in H.
    destruct (Nat.lt_trichotomy j (Z.to_nat o)) as [X|[X|X]].
    + rewrite !N1 by lia. apply So. lia.
    + subst j. rewrite N2, N1 by lia. apply Hlo. lia.
    + rewrite (N3 j) by lia. destruct (Nat.lt_trichotomy i (Z.to_nat o)) as [Y|[Y|Y]].
      * rewrite N1 by lia. apply So. lia.
      * subst i. rewrite N2. apply Hhi; lia.
      * rewrite N3 by lia. apply So. lia.
  - rewrite <- (firstn_skipn (Z.to_nat o) l) at 3. symmetry. apply Permutation_middle.
  - intros Hi. apply (In_nth _ _ 0) in Hi. destruct Hi as [i [Hi1 Hi2]].
    destruct (Z.lt_ge_cases (Z.of_nat i) o) as [X|X]; [specialize (Hlo i X)|specialize (Hhi i X Hi1)]; lia.
Qed.

Section Index.

Variable L : Type.
Variable leq : L -> L -> bool.
Variable hash : L -> N.
Variable enc : L -> bytes.
Variable dec : bytes -> option (L * bytes).
Variable n : N.
Variable redundant : L -> bool.

Hypothesis leq_refl : forall x, leq x x = true.
Hypothesis leq_sym : forall x y, leq x y = true -> leq y x = true.
Hypothesis leq_trans : forall x y z, leq x y = true -> leq y z = true -> leq x z = true.
Hypothesis hash_leq : forall x y, leq x y = true -> hash x = hash y.
Hypothesis codec : forall x r, dec (enc x ++ r) = Some (x, r).
Hypothesis n_ok : 3 <= n.

Notation from := FileIndexModel.from.
Notation po := (FileIndexModel.po n).
Notation get_offset := FileIndexModel.get_offset.
Notation read_entry := (FileIndexModel.read_entry L dec).
Notation read_vals := (FileIndexModel.read_vals L dec n).
Notation read_chain := (FileIndexModel.read_chain L leq dec n).
Notation first_slot := (FileIndexModel.first_slot L hash n).
Notation width := (FileIndexModel.width L hash n).
Notation fetch_loop := (FileIndexModel.fetch_loop L leq hash dec n).
Notation add1 := (FileIndexModel.add1 L leq).
Notation choice_of := (FileIndexModel.choice_of L leq).
Notation mem := (FileIndexModel.mem L leq).

(** ** The parts of a file *)

Record parts := { hd : bytes; offs : list N; data : bytes }.
Definition file (p : parts) : bytes := hd p ++ words (offs p) ++ data p.
Definition shape (p : parts) : Prop :=
  length (hd p) = 8%nat /\ N.of_nat (length (offs p)) = n /\ Forall (fun o => o < 2 ^ 32) (offs p).
Definition slot (p : parts) (s : N) : N := nth (N.to_nat s) (offs p) 0.

Lemma file_len p : shape p -> flen (file p) = 8 + 4 * n + flen (data p).
Proof. intros [A [B _]]. unfold flen, file. rewrite !app_length, words_len. lia. Qed.

Lemma nth_split_skip (l : list N) s d : (s < length l)%nat -> skipn s l = nth s l d :: skipn (S s) l.
Proof.
  revert s. induction l as [|x l IH]; intros [|s] H; cbn [length] in H; try lia; [reflexivity|].
  cbn [skipn nth]. apply IH. lia.
Qed.

Lemma slot_bound p s : shape p -> slot p s < 2 ^ 32.
Proof.
  intros [_ [B C]]. unfold slot. destruct (Nat.lt_ge_cases (N.to_nat s) (length (offs p))) as [X|X].
  - apply (proj1 (Forall_forall _ _) C). apply nth_In. exact X.
  - rewrite nth_overflow by exact X. reflexivity.
Qed.

Lemma read_slot p s : shape p -> s < n -> exists r,
  from (file p) (8 + 4 * s) = put_4bytes (slot p s) ++ r.
Proof.
  intros [A [B C]] H. exists (words (skipn (S (N.to_nat s)) (offs p)) ++ data p).
  unfold FileIndexModel.from, file. rewrite skip_app_ge by lia. rewrite A.
  replace (N.to_nat (8 + 4 * s) - 8)%nat with (4 * N.to_nat s)%nat by lia.
  rewrite skip_app_le by (rewrite words_len; lia). rewrite words_skip.
  rewrite (nth_split_skip _ _ 0) by lia. unfold words at 1. cbn [map concat]. rewrite <- app_assoc. reflexivity.
Qed.
Lemma get_slot p s : shape p -> s < n -> get_offset (file p) s = Some (slot p s).
Proof.
  intros Sh H. destruct (read_slot p s Sh H) as [r E]. unfold FileIndexModel.get_offset.
  replace (s * 4 + 8) with (8 + 4 * s) by lia. rewrite E, read_4bytes_put.
  rewrite N.mod_small by (apply slot_bound; assumption). reflexivity.
Qed.

(** What is at an offset of 8 or more. *)
Definition at_ (d : bytes) (o : N) : bytes := skipn (N.to_nat (o - 8)) d.
Lemma from_data p o : shape p -> 8 <= o -> from (file p) (o + po) = at_ (data p) o.
Proof.
  intros [A [B C]] H. unfold FileIndexModel.from, file, at_, FileIndexModel.po.
  rewrite skip_app_ge by lia. rewrite skip_app_ge by (rewrite words_len; lia).
  f_equal. rewrite words_len. lia.
Qed.
Lemma at_app d g o x r : at_ d o = x :: r -> at_ (d ++ g) o = x :: r ++ g.
Proof.
  unfold at_. intros E. destruct (Nat.lt_ge_cases (N.to_nat (o - 8)) (length d)) as [X|X].
  - rewrite skip_app_le by lia. rewrite E. reflexivity.
  - rewrite skipn_all2 in E by exact X. discriminate E.
Qed.
Lemma at_app' d g o b : b <> [] -> at_ d o = b -> at_ (d ++ g) o = b ++ g.
Proof. intros Hb E. destruct b as [|x b]; [contradiction|]. cbn [app]. apply at_app. exact E. Qed.
Lemma at_bound d o b : b <> [] -> at_ d o = b -> 8 <= o -> o < 8 + flen d.
Proof.
  unfold at_, flen. intros Hb E H. destruct (Nat.lt_ge_cases (N.to_nat (o - 8)) (length d)) as [X|X]; [lia|].
  rewrite skipn_all2 in E by exact X. subst b. contradiction.
Qed.
Lemma at_end d g : at_ (d ++ g) (8 + flen d) = g.
Proof. unfold at_, flen. rewrite skip_app_ge by lia. replace (_ - _)%nat with O by lia. reflexivity. Qed.
Lemma put4_ne w (r : bytes) : put_4bytes w ++ r <> [].
Proof. intros E. apply (f_equal (@length N)) in E. rewrite app_length, put_4bytes_len in E. cbn in E. lia. Qed.
Lemma encput_ne v w (r : bytes) : enc v ++ put_4bytes w ++ r <> [].
Proof. intros E. apply app_eq_nil in E. destruct E as [_ E]. exact (put4_ne _ _ E). Qed.

(** ** Entries and values *)

Definition is_entry (d : bytes) (o nv vp : N) (k : L) : Prop :=
  8 <= o /\ nv < 2 ^ 32 /\ vp < 2 ^ 32 /\
  exists r, at_ d o = put_4bytes nv ++ put_4bytes vp ++ enc k ++ r.

Inductive chain (d : bytes) : bytes -> N -> list L -> Prop :=
| ch_nil : forall cur, chain d cur 0 []
| ch_cons : forall cur next v nx r l,
    next = 1 \/ 8 <= next -> nx < 2 ^ 32 ->
    (if 1 <? next then at_ d next else cur) = enc v ++ put_4bytes nx ++ r ->
    chain d r nx l -> chain d cur next (v :: l).

Lemma entry_app d g o nv vp k : is_entry d o nv vp k -> is_entry (d ++ g) o nv vp k.
Proof.
  intros [A [B [C [r E]]]]. repeat split; try assumption. exists (r ++ g).
  rewrite (at_app' _ g _ _ (put4_ne _ _) E). rewrite <- !app_assoc. reflexivity.
Qed.
Lemma chain_app d g cur next l : chain d cur next l -> chain (d ++ g) (cur ++ g) next l.
Proof.
  intros C. induction C as [cur|cur next v nx r l A B E C IH]; [constructor|].
  apply (ch_cons _ _ _ _ nx (r ++ g)); try assumption.
  destruct (1 <? next).
  - rewrite (at_app' _ g _ _ (encput_ne _ _ _) E). rewrite <- !app_assoc. reflexivity.
  - rewrite E. rewrite <- !app_assoc. reflexivity.
Qed.
(** From the first value of an entry. *)
Lemma chain_cur d cur cur' next l : next <> 1 -> chain d cur next l -> chain d cur' next l.
Proof.
  intros D C. inversion C as [|? ? v nx r l' A B E C']; subst; [constructor|].
  apply (ch_cons _ _ _ _ nx r); try assumption. destruct A as [->|A]; [congruence|].
  destruct (N.ltb_spec 1 next); [exact E|lia].
Qed.

Lemma entry_pos d o nv vp k : is_entry d o nv vp k -> o < 8 + flen d.
Proof. intros [A [B [C [r E]]]]. exact (at_bound _ _ _ (put4_ne _ _) E A). Qed.

Lemma read_entry_ok p o nv vp k : shape p -> is_entry (data p) o nv vp k ->
  read_entry (file p) (o + po) = Some (nv, vp, k).
Proof.
  intros Sh [A [B [C [r E]]]]. unfold FileIndexModel.read_entry. rewrite from_data, E by assumption.
  rewrite read_4bytes_put, read_4bytes_put, codec, !N.mod_small by assumption. reflexivity.
Qed.

Lemma read_vals_ok p cur next l left : shape p -> chain (data p) cur next l -> (length l <= left)%nat ->
  read_vals (file p) cur next left = Some l.
Proof.
  intros Sh C. revert left. induction C as [cur|cur next v nx r l A B E C IH]; intros left H.
  - destruct left; reflexivity.
  - cbn [length] in H. destruct left as [|left]; [lia|]. cbn [FileIndexModel.read_vals].
    destruct (N.eqb_spec next 0) as [X|X]; [lia|].
    replace (if 1 <? next then FileIndexModel.from (file p) (next + FileIndexModel.po n) else cur)
      with (enc v ++ put_4bytes nx ++ r).
    + rewrite codec, read_4bytes_put, N.mod_small by assumption. rewrite IH by lia. reflexivity.
    + rewrite <- E. destruct A as [->|A]; [reflexivity|]. destruct (1 <? next); [|reflexivity].
      symmetry. apply from_data; assumption.
Qed.
Lemma read_chain_ok p cur next l left acc : shape p -> chain (data p) cur next l ->
  (length l <= left)%nat -> read_chain (file p) cur next left acc = Ok (fold_left add1 l acc).
Proof.
  intros Sh C. revert left acc. induction C as [cur|cur next v nx r l A B E C IH]; intros left acc H.
  - destruct left; reflexivity.
  - cbn [length] in H. destruct left as [|left]; [lia|]. cbn [FileIndexModel.read_chain].
    destruct (N.eqb_spec next 0) as [X|X]; [lia|].
    replace (if 1 <? next then FileIndexModel.from (file p) (next + FileIndexModel.po n) else cur)
      with (enc v ++ put_4bytes nx ++ r).
    + rewrite codec, read_4bytes_put, N.mod_small by assumption. rewrite IH by lia. reflexivity.
    + rewrite <- E. destruct A as [->|A]; [reflexivity|]. destruct (1 <? next); [|reflexivity].
      symmetry. apply from_data; assumption.
Qed.

(** ** Slots *)

(** Slot [s] has an entry for [k] with the values [l]. *)
Definition holds (p : parts) (s : N) (k : L) (l : list L) : Prop :=
  s < n /\ slot p s <> 0 /\
  exists vp, is_entry (data p) (slot p s) (N.of_nat (length l)) vp k /\ vp <> 1 /\
             chain (data p) [] vp l /\ 4 * N.of_nat (length l) <= flen (data p).

(** The slot of the j-th probe. *)
Definition probe (k : L) (j : N) : N := (first_slot k + j * width k) mod n.
Lemma probe_0 k : probe k 0 = first_slot k.
Proof. unfold probe, FileIndexModel.first_slot. rewrite N.mul_0_l, N.add_0_r. apply N.mod_mod. lia. Qed.
Lemma probe_next k j : next_slot n (probe k j) (width k) = probe k (j + 1).
Proof.
  unfold next_slot, probe. rewrite N.add_mod_idemp_l by lia. f_equal. ring.
Qed.
Lemma probe_lt k j : probe k j < n.
Proof. unfold probe. apply N.mod_lt. lia. Qed.
Lemma probe_leq k k' j : leq k k' = true -> probe k j = probe k' j.
Proof. intros E. unfold probe, FileIndexModel.first_slot, FileIndexModel.width. rewrite (hash_leq _ _ E). reflexivity. Qed.

(** The slot holds another key. *)
Definition other (p : parts) (k : L) (s : N) : Prop := exists k' l, holds p s k' l /\ leq k k' = false.

Record wf (p : parts) : Prop := {
  wf_shape : shape p;
  wf_slot : forall s, s < n -> slot p s = 0 \/ exists k l, holds p s k l;
  wf_probe : forall s k l, holds p s k l -> exists j, s = probe k j /\ forall i, i < j -> other p k (probe k i);
  wf_len : flen (file p) < 2 ^ 32 }.

Lemma put4_inj a b r r' : a < 2 ^ 32 -> b < 2 ^ 32 -> put_4bytes a ++ r = put_4bytes b ++ r' -> a = b /\ r = r'.
Proof.
  intros A B E. apply (f_equal read_4bytes) in E. rewrite !read_4bytes_put in E.
  rewrite !N.mod_small in E by assumption. injection E as E1 E2. split; assumption.
Qed.
Lemma enc_inj a b r r' : enc a ++ r = enc b ++ r' -> a = b /\ r = r'.
Proof. intros E. apply (f_equal dec) in E. rewrite !codec in E. injection E as E1 E2. split; assumption. Qed.
Lemma entry_det d o nv vp k nv' vp' k' : is_entry d o nv vp k -> is_entry d o nv' vp' k' ->
  nv = nv' /\ vp = vp' /\ k = k'.
Proof.
  intros [_ [B [C [r E]]]] [_ [B' [C' [r' E']]]]. rewrite E in E'.
  apply put4_inj in E'; try assumption. destruct E' as [-> E'].
  apply put4_inj in E'; try assumption. destruct E' as [-> E'].
  apply enc_inj in E'. destruct E' as [-> _]. repeat split.
Qed.
Lemma chain_det d cur next l l' : chain d cur next l -> chain d cur next l' -> l = l'.
Proof.
  intros C. revert l'. induction C as [cur|cur next v nx r l A B E C IH]; intros l' C'.
  - inversion C' as [|? ? ? ? ? ? A]; [reflexivity|]. subst. lia.
  - inversion C' as [|? ? v' nx' r' l0 A' B' E' C0]; subst; [lia|].
    rewrite E in E'. apply enc_inj in E'. destruct E' as [<- E'].
    apply put4_inj in E'; try assumption. destruct E' as [<- <-]. f_equal. apply IH. exact C0.
Qed.
Lemma holds_det p s k l k' l' : holds p s k l -> holds p s k' l' -> k = k' /\ l = l'.
Proof.
  intros [_ [_ [vp [E [_ [C _]]]]]] [_ [_ [vp' [E' [_ [C' _]]]]]].
  destruct (entry_det _ _ _ _ _ _ _ _ E E') as [_ [<- <-]]. split; [reflexivity|]. exact (chain_det _ _ _ _ _ C C').
Qed.

(** A key is in one slot at most. *)
Lemma holds_uniq p s k l s' k' l' : wf p -> holds p s k l -> holds p s' k' l' -> leq k k' = true -> s = s' /\ k = k' /\ l = l'.
Proof.
  intros W H H' E. destruct (wf_probe _ W _ _ _ H) as [j [-> Hj]]. destruct (wf_probe _ W _ _ _ H') as [j' [-> Hj']].
  assert (X : j = j').
  { destruct (N.lt_trichotomy j j') as [X|[X|X]]; [|exact X|].
    - destruct (Hj' _ X) as [k1 [l1 [H1 D]]]. rewrite <- (probe_leq k k' _ E) in H1.
      destruct (holds_det _ _ _ _ _ _ H H1) as [<- _]. rewrite (leq_sym _ _ E) in D. discriminate D.
    - destruct (Hj _ X) as [k1 [l1 [H1 D]]]. rewrite (probe_leq k k' _ E) in H1.
      destruct (holds_det _ _ _ _ _ _ H' H1) as [<- _]. congruence. }
  subst j'. rewrite <- (probe_leq k k' _ E) in *. split; [reflexivity|]. exact (holds_det _ _ _ _ _ _ H H').
Qed.

(** ** Fetching *)

Definition value (p : parts) (k : L) (l : list L) : Prop :=
  (exists s k', leq k k' = true /\ holds p s k' l) \/
  (l = [] /\ forall s k' l', holds p s k' l' -> leq k k' = false).

Lemma value_ex p k : (forall s, s < n -> slot p s = 0 \/ exists k l, holds p s k l) -> exists l, value p k l.
Proof.
  intros W.
  assert (X : forall m, (exists s k' l, leq k k' = true /\ holds p s k' l) \/
                        (forall s k' l', s < N.of_nat m -> holds p s k' l' -> leq k k' = false)).
  { induction m as [|m IH]; [right; intros; lia|]. destruct IH as [IH|IH]; [left; exact IH|].
    destruct (N.lt_ge_cases (N.of_nat m) n) as [Y|Y].
    - destruct (W _ Y) as [Z|[k1 [l1 H1]]].
      + right. intros s k' l' Hs H. destruct (N.eq_dec s (N.of_nat m)) as [->|D]; [|apply (IH s k' l'); [lia|exact H]].
        destruct H as [_ [H _]]. contradiction.
      + destruct (leq k k1) eqn:E; [left; exists (N.of_nat m), k1, l1; split; assumption|].
        right. intros s k' l' Hs H. destruct (N.eq_dec s (N.of_nat m)) as [->|D]; [|apply (IH s k' l'); [lia|exact H]].
        destruct (holds_det _ _ _ _ _ _ H H1) as [-> _]. exact E.
    - right. intros s k' l' Hs H. destruct (N.eq_dec s (N.of_nat m)) as [->|D]; [|apply (IH s k' l'); [lia|exact H]].
      destruct H as [H _]. lia. }
  destruct (X (N.to_nat n)) as [[s [k' [l [E H]]]]|H].
  - exists l. left. exists s, k'. split; assumption.
  - exists []. right. split; [reflexivity|]. intros s k' l' H'. apply (H s k' l'); [|exact H'].
    destruct H' as [A _]. lia.
Qed.

Lemma value_det p k k' l l' : wf p -> leq k k' = true -> value p k l -> value p k' l' -> l = l'.
Proof.
  intros W E [[s [k1 [E1 H1]]]|[-> N1]] [[s' [k2 [E2 H2]]]|[-> N2]]; try reflexivity.
  - destruct (holds_uniq p s k1 l s' k2 l' W H1 H2) as [_ [_ X]]; [|exact X].
    apply (leq_trans _ k); [apply leq_sym; exact E1|]. apply (leq_trans _ k'); assumption.
  - pose proof (N2 _ _ _ H1) as X. rewrite (leq_trans _ k) in X; [discriminate|apply leq_sym; exact E|exact E1].
  - pose proof (N1 _ _ _ H2) as X. rewrite (leq_trans _ k') in X; [discriminate|exact E|exact E2].
Qed.

(** The search arrives at the slot of the key, at a free slot, or gives up. *)
Lemma search p k j l : wf p -> value p k l -> (forall i, i < j -> other p k (probe k i)) ->
  slot p (probe k j) = 0 -> l = [].
Proof.
  intros W [[s [k' [E H]]]|[-> _]] Ho Hz; [|reflexivity]. exfalso.
  destruct (wf_probe _ W _ _ _ H) as [j' [-> Hj']]. rewrite <- (probe_leq k k' _ E) in H.
  destruct (N.lt_trichotomy j j') as [X|[X|X]].
  - destruct (Hj' _ X) as [k1 [l1 [[_ [H1 _]] _]]]. rewrite <- (probe_leq k k' _ E) in H1. contradiction.
  - subst j'. destruct H as [_ [H _]]. contradiction.
  - destruct (Ho _ X) as [k1 [l1 [H1 D]]]. destruct (holds_det _ _ _ _ _ _ H H1) as [<- _]. congruence.
Qed.

Lemma holds_entry p s k l : shape p -> holds p s k l -> exists vp,
  get_offset (file p) s = Some (slot p s) /\ slot p s <> 0 /\
  read_entry (file p) (slot p s + po) = Some (N.of_nat (length l), vp, k) /\
  vp <> 1 /\ chain (data p) [] vp l /\
  slot p s + po < flen (file p) + 1.
Proof.
  intros W [A [B [vp [E [D [C _]]]]]]. exists vp. split; [apply get_slot; assumption|].
  split; [exact B|]. split; [exact (read_entry_ok _ _ _ _ _ W E)|]. split; [exact D|]. split; [exact C|].
  pose proof (entry_pos _ _ _ _ _ E). rewrite file_len by exact W. unfold FileIndexModel.po. lia.
Qed.

Lemma fetch_loop_ok p k l : wf p -> value p k l -> forall left j,
  (forall i, i < j -> other p k (probe k i)) ->
  fetch_loop (file p) k left (probe k j) = Ok (choice_of l) \/
  (fetch_loop (file p) k left (probe k j) = Overflow /\
   forall i, i <= j + N.of_nat left -> other p k (probe k i)).
Proof.
  intros W V left. induction left as [|left IH]; intros j Ho.
  all: assert (Sh := wf_shape _ W); destruct (N.eq_dec (slot p (probe k j)) 0) as [Z|Z].
  1,3: left; cbn [FileIndexModel.fetch_loop]; rewrite get_slot by (try apply probe_lt; assumption);
    rewrite Z; rewrite (search _ _ _ _ W V Ho Z); reflexivity.
  all: destruct (wf_slot _ W _ (probe_lt k j)) as [X|[k1 [l1 H1]]]; [contradiction|];
    destruct (holds_entry _ _ _ _ Sh H1) as [vp [E1 [E2 [E3 [E4 [E5 E6]]]]]];
    assert (Hw : FileIndexModel.w32 (slot p (probe k j) + po) = slot p (probe k j) + po)
      by (unfold FileIndexModel.w32; apply N.mod_small; pose proof (wf_len _ W); lia).
  all: cbn [FileIndexModel.fetch_loop]; rewrite E1; destruct (slot p (probe k j)) as [|o] eqn:Eo; [contradiction|];
    rewrite Hw, E3.
  all: destruct (leq k k1) eqn:El.
  1,3: left;
    assert (l = l1) as -> by (apply (value_det p k k1 l l1 W El V); left; exists (probe k j), k1; split; [apply leq_refl|exact H1]);
    destruct l1 as [|v l1]; [reflexivity|];
    destruct (N.eqb_spec (N.of_nat (length (v :: l1))) 0) as [Y|Y]; [discriminate Y|];
    rewrite (read_vals_ok _ _ _ _ _ Sh E5) by lia; reflexivity.
  - right. split; [reflexivity|]. intros i Hi.
    destruct (N.eq_dec i j) as [->|D]; [exists k1, l1; split; assumption|apply Ho; lia].
  - assert (Ho' : forall i, i < j + 1 -> other p k (probe k i)).
    { intros i Hi. destruct (N.eq_dec i j) as [->|D]; [exists k1, l1; split; assumption|apply Ho; lia]. }
    rewrite probe_next. destruct (IH _ Ho') as [X|[X X']]; [left; exact X|right; split; [exact X|]].
    intros i Hi. apply X'. lia.
Qed.

(** fileindex_fetch *)
Lemma fetch_ok p k l : wf p -> value p k l -> redundant k = false ->
  fetch L leq hash dec n redundant (file p) k = Ok (choice_of l) \/
  (fetch L leq hash dec n redundant (file p) k = Overflow /\
   forall i, i <= 257 -> other p k (probe k i)).
Proof.
  intros W V R. unfold fetch. rewrite R. rewrite <- probe_0.
  apply (fetch_loop_ok p k l W V 257 0). intros i Hi. lia.
Qed.

(** fetchn *)
Lemma fetchn_loop_ok p k l a : wf p -> value p k l -> forall left j,
  (forall i, i < j -> other p k (probe k i)) ->
  let r := fetchn_loop L leq hash dec n (file p) k a left (probe k j) in
  r = Stuck \/
  r = Ok (fold_left add1 l (match a with Some s => s | None => [] end)) \/ (l = [] /\ r = Ok []).
Proof.
  intros W V left. induction left as [|left IH]; intros j Ho r; [left; reflexivity|].
  assert (Sh := wf_shape _ W). unfold r. cbn [fetchn_loop].
  destruct (N.eq_dec (slot p (probe k j)) 0) as [Z|Z].
  { right; left. rewrite get_slot by (try apply probe_lt; assumption). rewrite Z.
    rewrite (search _ _ _ _ W V Ho Z). reflexivity. }
  destruct (wf_slot _ W _ (probe_lt k j)) as [X|[k1 [l1 H1]]]; [contradiction|].
  destruct (holds_entry _ _ _ _ Sh H1) as [vp [E1 [E2 [E3 [E4 [E5 E6]]]]]].
  assert (B : 4 * N.of_nat (length l1) <= flen (data p)) by (destruct H1 as [_ [_ [? [_ [_ [_ Y]]]]]]; exact Y).
  rewrite E1. destruct (slot p (probe k j)) as [|o] eqn:Eo; [contradiction|]. rewrite E3.
  destruct (leq k1 k) eqn:El.
  - assert (l = l1) as ->.
    { apply (value_det p k k1 l l1 W (leq_sym _ _ El) V). left. exists (probe k j), k1. split; [apply leq_refl|exact H1]. }
    destruct l1 as [|v l1]; [right; right; split; reflexivity|]. right; left.
    destruct (N.eqb_spec (N.of_nat (length (v :: l1))) 0) as [Y|Y]; [discriminate Y|].
    rewrite (read_chain_ok _ _ _ _ _ _ Sh E5); [reflexivity|].
    pose proof (file_len _ Sh). unfold flen in *. cbn [length] in *. lia.
  - rewrite probe_next. apply IH. intros i Hi.
    destruct (N.eq_dec i j) as [->|D]; [|apply Ho; lia]. exists k1, l1. split; [exact H1|].
    destruct (leq k k1) eqn:F; [|reflexivity]. rewrite (leq_sym _ _ F) in El. discriminate El.
Qed.

(** ** Finding slots for the keys of a save *)

Notation keydata := (FileIndexModel.keydata L).
Notation kd_key := (FileIndexModel.kd_key L).
Notation kd_add := (FileIndexModel.kd_add L).
Notation kd_serial := (FileIndexModel.kd_serial L).
Notation kd_slot := (FileIndexModel.kd_slot L).
Notation kd_seek := (FileIndexModel.kd_seek L).
Notation kd_done := (FileIndexModel.kd_done L).
Notation kd_n := (FileIndexModel.kd_n L).
Notation kd_pos := (FileIndexModel.kd_pos L).
Notation KD := (FileIndexModel.KD L).
Notation step_kd := (FileIndexModel.step_kd L leq hash dec n).
Notation pass_kd := (FileIndexModel.pass_kd L leq hash dec n).
Notation passes := (FileIndexModel.passes L leq hash dec n).
Notation probe_on := (FileIndexModel.probe_on L hash n).

Section Save.

Variable p : parts.
Hypothesis W : wf p.
(** The entries at the start. *)
Variable ds0 : list keydata.
Hypothesis serials : NoDup (map kd_serial ds0).

Definition isnew (d : keydata) : bool := kd_done d && (slot p (kd_slot d) =? 0).

Definition blocked (A : list keydata) (d : keydata) (s : N) : Prop :=
  other p (kd_key d) s \/
  exists d', In d' A /\ isnew d' = true /\ kd_slot d' = s /\ kd_serial d' <> kd_serial d.

Definition status (d0 d : keydata) : Prop :=
  (kd_done d = false /\ kd_seek d = true /\ kd_pos d = 8 + 4 * kd_slot d /\ kd_n d = kd_n d0) \/
  (kd_done d = false /\ kd_seek d = false /\ slot p (kd_slot d) <> 0 /\
   kd_pos d = slot p (kd_slot d) + po /\ kd_n d = kd_n d0) \/
  (kd_done d = true /\ slot p (kd_slot d) = 0 /\ kd_pos d = 0 /\ kd_n d = default (kd_n d0) 0) \/
  (kd_done d = true /\ exists k' l, holds p (kd_slot d) k' l /\ leq k' (kd_key d) = true /\
   kd_pos d <> 1 /\ kd_pos d < 2 ^ 32 /\ chain (data p) [] (kd_pos d) l /\
   kd_n d = default (kd_n d0) (N.of_nat (length l))).

Definition good (A : list keydata) (d : keydata) : Prop :=
  exists d0, In d0 ds0 /\ kd_serial d = kd_serial d0 /\ kd_key d = kd_key d0 /\ kd_add d = kd_add d0 /\
  (exists j, kd_slot d = probe (kd_key d) j /\ forall i, i < j -> blocked A d (probe (kd_key d) i)) /\
  status d0 d.

Record Inv (res : list N) (A : list keydata) : Prop := {
  inv_serial : Permutation (map kd_serial A) (map kd_serial ds0);
  inv_good : forall d, In d A -> good A d;
  inv_sorted : sorted res;
  inv_nodup : NoDup res;
  inv_res : Permutation (map kd_slot (filter isnew A)) res }.

Lemma blocked_mono A B d s : (forall d', In d' A -> isnew d' = true -> In d' B) -> blocked A d s -> blocked B d s.
Proof. intros H [X|[d' [A1 [A2 A3]]]]; [left; exact X|right; exists d'; split; [apply H; assumption|split; assumption]]. Qed.
Lemma good_mono A B d : (forall d', In d' A -> isnew d' = true -> In d' B) -> good A d -> good B d.
Proof.
  intros H [d0 [A1 [A2 [A3 [A4 [[j [A5 A6]] A7]]]]]]. exists d0. repeat split; try assumption.
  exists j. split; [exact A5|]. intros i Hi. apply (blocked_mono A); [exact H|apply A6; exact Hi].
Qed.

Lemma filter_perm {X} (f : X -> bool) a b : Permutation a b -> Permutation (filter f a) (filter f b).
Proof.
  intros P. induction P as [|x a b P IH|x y a|a b c P1 IH1 P2 IH2]; cbn [filter].
  - constructor.
  - destruct (f x); [constructor|]; exact IH.
  - destruct (f x), (f y); try apply Permutation_refl. apply perm_swap.
  - eapply Permutation_trans; eassumption.
Qed.

Lemma Inv_perm res A B : Permutation A B -> Inv res A -> Inv res B.
Proof.
  intros P I. constructor.
  - eapply Permutation_trans; [|apply (inv_serial _ _ I)]. apply Permutation_map, Permutation_sym, P.
  - intros d Hd. apply (good_mono A); [intros d' H _; apply (Permutation_in _ P); exact H|].
    apply (inv_good _ _ I). apply (Permutation_in _ (Permutation_sym P)). exact Hd.
  - apply (inv_sorted _ _ I).
  - apply (inv_nodup _ _ I).
  - eapply Permutation_trans; [|apply (inv_res _ _ I)]. apply Permutation_map, filter_perm, Permutation_sym, P.
Qed.

(** Replacing an entry which is not completed. *)
Lemma Inv_replace res d d' R : Inv res (d :: R) -> kd_done d = false -> isnew d' = false ->
  kd_serial d' = kd_serial d -> good (d :: R) d' -> Inv res (d' :: R).
Proof.
  intros I D D' S G.
  assert (Nd : isnew d = false) by (unfold isnew; rewrite D; reflexivity).
  assert (M : forall x, In x (d :: R) -> isnew x = true -> In x (d' :: R)).
  { intros x [<-|Hx] Hn; [congruence|right; exact Hx]. }
  constructor.
  - cbn [map]. rewrite S. exact (inv_serial _ _ I).
  - intros x [<-|Hx]; [exact (good_mono _ _ _ M G)|].
    apply (good_mono (d :: R)); [exact M|]. apply (inv_good _ _ I). right. exact Hx.
  - apply (inv_sorted _ _ I).
  - apply (inv_nodup _ _ I).
  - pose proof (inv_res _ _ I) as X. cbn [filter] in *. rewrite Nd in X. rewrite D'. exact X.
Qed.

Lemma good_undone A d : good A d -> kd_done d = false -> kd_slot d < n.
Proof. intros [d0 [_ [_ [_ [_ [[j [E _]] _]]]]]] _. rewrite E. apply probe_lt. Qed.

Lemma serial_ne res d R d' : Inv res (d :: R) -> In d' R -> kd_serial d' <> kd_serial d.
Proof.
  intros I H E. pose proof (Permutation_NoDup (Permutation_sym (inv_serial _ _ I)) serials) as ND.
  cbn [map] in ND. inversion ND as [|? ? Hn _]; subst. apply Hn. rewrite <- E. apply in_map. exact H.
Qed.

Lemma probe_on_good A d s' : good A d -> kd_done d = false -> kd_slot d = s' ->
  blocked A d s' -> good A (probe_on d).
Proof.
  intros [d0 [A1 [A2 [A3 [A4 [[j [A5 A6]] A7]]]]]] D Es B. exists d0. unfold FileIndexModel.probe_on. cbn.
  repeat split; try assumption.
  - exists (j + 1). split.
    + rewrite A5. apply probe_next.
    + intros i Hi. destruct (N.eq_dec i j) as [->|Dj].
      * rewrite <- A5, Es. exact B.
      * apply A6. lia.
  - left. cbn. repeat split. destruct A7 as [X|[X|[X|X]]]; try (destruct X as [X _]; congruence).
    + destruct X as [_ [_ [_ X]]]. exact X.
    + destruct X as [_ [_ [_ [_ X]]]]. exact X.
Qed.

Lemma step_ok res d R : Inv res (d :: R) -> kd_done d = false ->
  exists res' d', step_kd (file p) res d = Some (res', d') /\ Inv res' (d' :: R).
Proof.
  intros I D. assert (G := inv_good _ _ I d (or_introl eq_refl)).
  assert (Sh := wf_shape _ W).
  pose proof (good_undone _ _ G D) as Hs.
  unfold FileIndexModel.step_kd. destruct (kd_seek d) eqn:Sk.
  - assert (P : kd_pos d = 8 + 4 * kd_slot d).
    { destruct G as [d0 [_ [_ [_ [_ [_ [X|[X|[X|X]]]]]]]]]; destruct X as [X1 [X2 X3]]; try congruence. apply X3. }
    destruct (read_slot p _ Sh Hs) as [r Er]. rewrite P, Er, read_4bytes_put.
    rewrite N.mod_small by (apply slot_bound; exact Sh).
    destruct (N.eqb_spec (slot p (kd_slot d)) 0) as [Z|Z]; cbn [negb].
    + pose proof (reserve_ok res (kd_slot d) (inv_sorted _ _ I)) as Rv.
      destruct (reserve_slotno res (kd_slot d)) as [res'|].
      * destruct Rv as [S1 [S2 S3]]. eexists _, _. split; [reflexivity|].
        set (d' := KD (kd_key d) (kd_add d) (kd_serial d) (kd_slot d) false true (default (kd_n d) 0) 0).
        assert (Nd : isnew d = false) by (unfold isnew; rewrite D; reflexivity).
        assert (Nd' : isnew d' = true) by (unfold isnew, d'; cbn; rewrite Z; reflexivity).
        assert (M : forall x, In x (d :: R) -> isnew x = true -> In x (d' :: R)).
        { intros x [<-|Hx] Hn; [congruence|right; exact Hx]. }
        constructor.
        -- exact (inv_serial _ _ I).
        -- intros x [<-|Hx].
           ++ apply (good_mono _ _ _ M). destruct G as [d0 [A1 [A2 [A3 [A4 [A5 A6]]]]]].
              exists d0. unfold d'. cbn. repeat split; try assumption. right; right; left. cbn.
              repeat split; try assumption.
              destruct A6 as [X|[X|[X|X]]]; try (destruct X as [X _]; congruence); try (destruct X as [_ [X _]]; congruence).
              destruct X as [_ [_ [_ X]]]. rewrite X. reflexivity.
           ++ apply (good_mono (d :: R)); [exact M|]. apply (inv_good _ _ I). right. exact Hx.
        -- exact S1.
        -- apply (Permutation_NoDup (Permutation_sym S2)). constructor; [exact S3|]. exact (inv_nodup _ _ I).
        -- cbn [filter]. rewrite Nd'. cbn [map]. apply Permutation_sym.
           eapply Permutation_trans; [exact S2|]. apply perm_skip.
           pose proof (inv_res _ _ I) as X. cbn [filter] in X. rewrite Nd in X. apply Permutation_sym, X.
      * eexists _, _. split; [reflexivity|].
        apply (Inv_replace _ d); try assumption; try reflexivity.
        apply (probe_on_good _ _ (kd_slot d) G D eq_refl). right.
        apply (Permutation_in _ (Permutation_sym (inv_res _ _ I))) in Rv. apply in_map_iff in Rv.
        destruct Rv as [d' [E1 E2]]. apply filter_In in E2. destruct E2 as [E2 E3].
        exists d'. repeat split; try assumption.
        destruct E2 as [<-|E2]; [unfold isnew in E3; rewrite D in E3; discriminate E3|].
        exact (serial_ne _ _ _ _ I E2).
    + eexists _, _. split; [reflexivity|]. apply (Inv_replace _ d); try assumption; try reflexivity.
      destruct G as [d0 [A1 [A2 [A3 [A4 [A5 A6]]]]]].
      exists d0. cbn. repeat split; try assumption. right; left. cbn.
      repeat split; try assumption.
      destruct A6 as [X|[X|[X|X]]]; try (destruct X as [X _]; congruence); try (destruct X as [_ [X _]]; congruence).
      destruct X as [_ [_ [_ X]]]. exact X.
  - assert (P : slot p (kd_slot d) <> 0 /\ kd_pos d = slot p (kd_slot d) + po).
    { destruct G as [d0 [_ [_ [_ [_ [_ [X|[X|[X|X]]]]]]]]]; try (destruct X as [X1 [X2 X3]]; congruence).
      destruct X as [_ [_ [X1 [X2 _]]]]. split; assumption. }
    destruct P as [P1 P2].
    destruct (wf_slot _ W _ Hs) as [X|[k1 [l1 H1]]]; [contradiction|].
    destruct (holds_entry _ _ _ _ Sh H1) as [vp [E1 [E2 [E3 [E4 [E5 E6]]]]]].
    rewrite P2, E3. destruct (leq k1 (kd_key d)) eqn:El.
    + eexists _, _. split; [reflexivity|]. apply (Inv_replace _ d); try assumption; try reflexivity.
      { unfold isnew. cbn. destruct (N.eqb_spec (slot p (kd_slot d)) 0); [contradiction|reflexivity]. }
      destruct G as [d0 [A1 [A2 [A3 [A4 [A5 A6]]]]]].
      exists d0. cbn. repeat split; try assumption. right; right; right. cbn. split; [reflexivity|].
      exists k1, l1. repeat split; try assumption.
      * apply (proj2 (proj2 H1)).
      * destruct H1 as [_ [_ [vp' [Y [_ [_ _]]]]]].
        assert (vp = vp') as ->.
        { pose proof (read_entry_ok _ _ _ _ _ Sh Y) as Z. rewrite E3 in Z. congruence. }
        apply Y.
      * destruct A6 as [X|[X|[X|X]]]; try (destruct X as [X _]; congruence); try (destruct X as [_ [X _]]; congruence).
        destruct X as [_ [_ [_ [_ X]]]]. rewrite X. reflexivity.
    + eexists _, _. split; [reflexivity|]. apply (Inv_replace _ d); try assumption; try reflexivity.
      apply (probe_on_good _ _ (kd_slot d) G D eq_refl). left. exists k1, l1. split; [exact H1|].
      destruct (leq (kd_key d) k1) eqn:F; [|reflexivity]. rewrite (leq_sym _ _ F) in El. discriminate El.
Qed.

Lemma pass_ok ds : forall res R, Inv res (ds ++ R) -> Forall (fun d => kd_done d = false) ds ->
  exists res' ds', pass_kd (file p) res ds = Some (res', ds') /\ Inv res' (ds' ++ R) /\ length ds' = length ds.
Proof.
  induction ds as [|d ds IH]; intros res R I F.
  - exists res, []. split; [reflexivity|]. split; [exact I|reflexivity].
  - inversion F as [|? ? D F']; subst. cbn [app] in I.
    destruct (step_ok _ _ _ I D) as [res1 [d' [E1 I1]]].
    assert (I2 : Inv res1 (ds ++ (d' :: R))).
    { apply (Inv_perm _ (d' :: ds ++ R)); [|exact I1]. apply Permutation_middle. }
    destruct (IH _ _ I2 F') as [res2 [ds' [E2 [I3 Hl]]]].
    exists res2, (d' :: ds'). cbn [FileIndexModel.pass_kd]. rewrite E1, E2. split; [reflexivity|].
    split; [|cbn [length]; congruence]. cbn [app].
    apply (Inv_perm _ (ds' ++ d' :: R)); [|exact I3]. apply Permutation_sym, Permutation_middle.
Qed.

Lemma filter_length_le {X} (f : X -> bool) l : (length (filter f l) <= length l)%nat.
Proof. induction l as [|x l IH]; [apply le_n|]. cbn [filter]. destruct (f x); cbn [length]; lia. Qed.
Lemma filter_split {X} (f : X -> bool) l : Permutation l (filter (fun x => negb (f x)) l ++ filter f l).
Proof.
  induction l as [|x l IH]; [constructor|]. cbn [filter]. destruct (f x); cbn [negb].
  - eapply Permutation_trans; [apply perm_skip, IH|]. apply Permutation_middle.
  - cbn [app]. apply perm_skip, IH.
Qed.

Lemma passes_ok left : forall chain res ds fin out,
  Inv res (ds ++ fin) -> Forall (fun d => kd_done d = true) fin ->
  passes left (file p) chain res ds fin = Ok out ->
  (exists res', Inv res' out) /\ Forall (fun d => kd_done d = true) out.
Proof.
  induction left as [|left IH]; intros ch res ds fin out I F E; [discriminate E|].
  cbn [FileIndexModel.passes] in E.
  set (todo := qsort kd_pos (filter (fun d => negb (kd_done d)) ds)) in *.
  set (fin' := filter kd_done ds ++ fin) in *.
  assert (F' : Forall (fun d => kd_done d = true) fin').
  { apply Forall_app. split; [|exact F]. apply Forall_forall. intros d Hd. apply filter_In in Hd. apply Hd. }
  assert (P : Permutation (ds ++ fin) (todo ++ fin')).
  { unfold fin'. rewrite app_assoc. apply Permutation_app_tail.
    eapply Permutation_trans; [apply (filter_split kd_done)|]. apply Permutation_app_tail.
    apply Permutation_sym, qsort_perm. }
  pose proof (Inv_perm _ _ _ P I) as I'.
  assert (T : Forall (fun d => kd_done d = false) todo).
  { apply Forall_forall. intros d Hd. apply (Permutation_in _ (qsort_perm _ _)) in Hd.
    apply filter_In in Hd. destruct Hd as [_ Hd]. apply negb_true_iff in Hd. exact Hd. }
  destruct (Nat.eqb_spec (length ds) 0) as [Z|Z].
  - injection E as <-. split; [|exact F']. exists res.
    destruct ds; [|discriminate Z]. exact I'.
  - destruct (pass_ok _ _ _ I' T) as [res' [ds' [E1 [I2 _]]]]. rewrite E1 in E.
    destruct (length ds =? length todo)%nat.
    + destruct (256 <? ch); [discriminate E|]. exact (IH _ _ _ _ _ I2 F' E).
    + exact (IH _ _ _ _ _ I2 F' E).
Qed.

Lemma passes_total left : forall chain res ds fin,
  Inv res (ds ++ fin) -> Forall (fun d => kd_done d = true) fin -> chain <= 257 ->
  (300 * length ds + 258 < left + N.to_nat chain)%nat ->
  (exists out, passes left (file p) chain res ds fin = Ok out) \/ passes left (file p) chain res ds fin = Overflow.
Proof.
  induction left as [|left IH]; intros ch res ds fin I F Hc Hl; [lia|].
  cbn [FileIndexModel.passes].
  set (todo := qsort kd_pos (filter (fun d => negb (kd_done d)) ds)) in *.
  set (fin' := filter kd_done ds ++ fin) in *.
  assert (F' : Forall (fun d => kd_done d = true) fin').
  { apply Forall_app. split; [|exact F]. apply Forall_forall. intros d Hd. apply filter_In in Hd. apply Hd. }
  assert (P : Permutation (ds ++ fin) (todo ++ fin')).
  { unfold fin'. rewrite app_assoc. apply Permutation_app_tail.
    eapply Permutation_trans; [apply (filter_split kd_done)|]. apply Permutation_app_tail.
    apply Permutation_sym, qsort_perm. }
  pose proof (Inv_perm _ _ _ P I) as I'.
  assert (T : Forall (fun d => kd_done d = false) todo).
  { apply Forall_forall. intros d Hd. apply (Permutation_in _ (qsort_perm _ _)) in Hd.
    apply filter_In in Hd. destruct Hd as [_ Hd]. apply negb_true_iff in Hd. exact Hd. }
  assert (Lt : (length todo <= length ds)%nat).
  { unfold todo. rewrite (Permutation_length (qsort_perm _ _)). apply filter_length_le. }
  destruct (Nat.eqb_spec (length ds) 0) as [Z|Z]; [left; eexists; reflexivity|].
  destruct (pass_ok _ _ _ I' T) as [res' [ds' [E1 [I2 L2]]]]. rewrite E1.
  destruct (Nat.eqb_spec (length ds) (length todo)) as [Y|Y].
  - destruct (N.ltb_spec 256 ch) as [X|X]; [right; reflexivity|]. apply IH; try assumption; lia.
  - apply IH; try assumption; lia.
Qed.

Lemma Inv0 : Inv [] (map (start_kd L hash n) ds0 ++ []).
Proof.
  rewrite app_nil_r.
  assert (X : filter isnew (map (start_kd L hash n) ds0) = []).
  { clear. induction ds0 as [|d ds IH]; [reflexivity|]. cbn [map filter]. exact IH. }
  constructor.
  - rewrite map_map. apply Permutation_refl.
  - intros d Hd. apply in_map_iff in Hd. destruct Hd as [d0 [<- Hd]]. exists d0. cbn.
    repeat split; try assumption.
    + exists 0. split; [symmetry; apply probe_0|]. intros i Hi. lia.
    + left. repeat split.
  - intros i j H. cbn in H. lia.
  - constructor.
  - rewrite X. constructor.
Qed.

Lemma fetch_keydata_ok out :
  fetch_keydata L leq hash dec n (file p) ds0 = Ok out ->
  (exists res', Inv res' out) /\ Forall (fun d => kd_done d = true) out.
Proof.
  intros E. unfold fetch_keydata in E. apply passes_ok in E; [exact E|exact Inv0|constructor].
Qed.
Lemma fetch_keydata_total :
  (exists out, fetch_keydata L leq hash dec n (file p) ds0 = Ok out) \/
  fetch_keydata L leq hash dec n (file p) ds0 = Overflow.
Proof.
  unfold fetch_keydata. apply passes_total; [exact Inv0|constructor|lia|]. rewrite map_length. lia.
Qed.

End Save.

(** ** Appending *)

Definition ext (p : parts) (g : bytes) : parts := {| hd := hd p; offs := offs p; data := data p ++ g |}.
Lemma file_ext p g : file (ext p g) = file p ++ g.
Proof. unfold file, ext. cbn. rewrite <- !app_assoc. reflexivity. Qed.
Lemma ext_ext p g h : ext (ext p g) h = ext p (g ++ h).
Proof. unfold ext. cbn. rewrite app_assoc. reflexivity. Qed.
Lemma shape_ext p g : shape p -> shape (ext p g).
Proof. intros H. exact H. Qed.
Lemma flen_app a b : flen (a ++ b) = flen a + flen b.
Proof. unfold flen. rewrite app_length. lia. Qed.

Lemma holds_ext p g s k l : holds p s k l -> holds (ext p g) s k l.
Proof.
  intros [A [B [vp [C [D [E F]]]]]]. split; [exact A|]. split; [exact B|]. exists vp. cbn [ext data].
  split; [apply entry_app; exact C|]. split; [exact D|]. split.
  - apply (chain_cur _ ([] ++ g)); [exact D|]. apply chain_app. exact E.
  - rewrite flen_app. lia.
Qed.
Lemma holds_ext_inv p g s k l : (forall s, s < n -> slot p s = 0 \/ exists k l, holds p s k l) ->
  holds (ext p g) s k l -> holds p s k l.
Proof.
  intros W H. destruct (W s (proj1 H)) as [X|[k' [l' H']]].
  - destruct H as [_ [H _]]. contradiction.
  - destruct (holds_det _ _ _ _ _ _ H (holds_ext _ g _ _ _ H')) as [-> ->]. exact H'.
Qed.
Lemma other_ext p g k s : other p k s -> other (ext p g) k s.
Proof. intros [k' [l [H E]]]. exists k', l. split; [apply holds_ext; exact H|exact E]. Qed.
Lemma wf_ext p g : wf p -> flen (file p ++ g) < 2 ^ 32 -> wf (ext p g).
Proof.
  intros W B. constructor.
  - exact (wf_shape _ W).
  - intros s Hs. destruct (wf_slot _ W s Hs) as [X|[k [l H]]]; [left; exact X|right].
    exists k, l. apply holds_ext. exact H.
  - intros s k l H. apply (holds_ext_inv _ _ _ _ _ (wf_slot _ W)) in H.
    destruct (wf_probe _ W _ _ _ H) as [j [E Hj]]. exists j. split; [exact E|].
    intros i Hi. apply other_ext. apply Hj. exact Hi.
  - rewrite file_ext. exact B.
Qed.
Lemma value_ext p g k l : wf p -> value p k l -> value (ext p g) k l.
Proof.
  intros W [[s [k' [E H]]]|[-> H]].
  - left. exists s, k'. split; [exact E|apply holds_ext; exact H].
  - right. split; [reflexivity|]. intros s k' l' H'. apply (H s k' l').
    exact (holds_ext_inv _ _ _ _ _ (wf_slot _ W) H').
Qed.

(** ** Values *)

Notation write_values := (FileIndexModel.write_values L enc).

Lemma wv_len v next : 4 * N.of_nat (length v) <= flen (write_values v next).
Proof.
  unfold flen. induction v as [|x v IH]; [cbn; lia|].
  destruct v as [|y v].
  - cbn [FileIndexModel.write_values]. rewrite app_length, put_4bytes_len. cbn [length]. lia.
  - change (write_values (x :: y :: v) next) with (enc x ++ put_4bytes 1 ++ write_values (y :: v) next).
    rewrite !app_length, put_4bytes_len. cbn [length] in *. lia.
Qed.
Lemma wv_chain D v next l t : v <> [] -> next < 2 ^ 32 -> next <> 1 -> chain D [] next l ->
  chain D (write_values v next ++ t) 1 (v ++ l).
Proof.
  intros Hv H1 H2 C. induction v as [|x v IH]; [contradiction|].
  destruct v as [|y v].
  - cbn [FileIndexModel.write_values app]. rewrite <- app_assoc.
    apply (ch_cons _ _ _ _ next t); [left; reflexivity|exact H1|reflexivity|].
    exact (chain_cur _ _ _ _ _ H2 C).
  - change (write_values (x :: y :: v) next) with (enc x ++ put_4bytes 1 ++ write_values (y :: v) next).
    rewrite <- !app_assoc. cbn [app].
    apply (ch_cons _ _ _ _ 1 (write_values (y :: v) next ++ t)); [left; reflexivity|reflexivity|reflexivity|].
    apply IH. discriminate.
Qed.
Lemma chain_at D o cur l : 8 <= o -> at_ D o = cur -> chain D cur 1 l -> chain D [] o l.
Proof.
  intros Ho E C. inversion C as [|? ? v nx r l' A B E' C']; subst.
  apply (ch_cons _ _ _ _ nx r); [right; exact Ho|exact B| |exact C'].
  destruct (N.ltb_spec 1 o); [exact E'|lia].
Qed.
Lemma wv_pos d v next l t : v <> [] -> next < 2 ^ 32 -> next <> 1 -> chain d [] next l ->
  chain (d ++ write_values v next ++ t) [] (8 + flen d) (v ++ l).
Proof.
  intros Hv H1 H2 C. apply (chain_at _ _ (write_values v next ++ t)); [lia|apply at_end|].
  apply wv_chain; try assumption. apply (chain_cur _ ([] ++ (write_values v next ++ t))); [exact H2|].
  apply chain_app. exact C.
Qed.

(** ** The values of edits *)

Fixpoint edit_kds (serial : N) (kvs : list (L * list L)) : list keydata :=
  match kvs with
  | [] => []
  | (k, v) :: r => KD k [] serial 0 true false (Some (N.of_nat (length v))) 0 :: edit_kds (serial + 1) r
  end.
Definition vpos_ok (d : bytes) (vp : N) (l : list L) : Prop :=
  chain d [] vp l /\ vp <> 1 /\ vp < 2 ^ 32 /\ 4 * N.of_nat (length l) <= flen d.
Lemma vpos_app d g vp l : vpos_ok d vp l -> vpos_ok (d ++ g) vp l.
Proof.
  intros [A [B [C D]]]. repeat split; try assumption.
  - apply (chain_cur _ ([] ++ g)); [exact B|]. apply chain_app. exact A.
  - rewrite flen_app. lia.
Qed.
Definition edit_vp (valpos : N) : N := if valpos =? 0 then 0 else FileIndexModel.w32 (valpos + 2 ^ 32 - po).

Lemma commit_vals_ok kvs : forall p serial, shape p -> exists g l,
  commit_vals L enc (file p) serial kvs = (file (ext p g), l) /\
  map fst l = edit_kds serial kvs /\
  (flen (file (ext p g)) < 2 ^ 32 ->
   Forall2 (fun kv dv => vpos_ok (data p ++ g) (edit_vp (snd dv)) (snd kv)) kvs l).
Proof.
  induction kvs as [|[k v] kvs IH]; intros p serial Sh.
  - exists [], []. rewrite file_ext, app_nil_r. repeat split. constructor.
  - destruct (IH (ext p (write_values v 0)) (serial + 1) (shape_ext _ _ Sh)) as [g [l [E1 [E2 E3]]]].
    rewrite ext_ext in *. rewrite file_ext in E1.
    exists (write_values v 0 ++ g). eexists. cbn [commit_vals]. rewrite E1. split; [reflexivity|].
    split; [cbn [map fst edit_kds]; rewrite E2; reflexivity|].
    intros B. constructor; [|cbn [data ext] in E3; rewrite app_assoc; apply E3; exact B].
    cbn [snd]. rewrite file_ext, flen_app, flen_app in B.
    pose proof (file_len _ Sh) as FL.
    destruct v as [|x v].
    + unfold edit_vp. rewrite N.eqb_refl. split; [apply ch_nil|]. split; [lia|]. split; [lia|]. cbn [length]. lia.
    + assert (Ev : FileIndexModel.w32 (flen (file p)) = flen (file p)) by (unfold FileIndexModel.w32; apply N.mod_small; lia).
      rewrite Ev. unfold edit_vp. destruct (N.eqb_spec (flen (file p)) 0) as [X|X]; [lia|].
      assert (Ep : FileIndexModel.w32 (flen (file p) + 2 ^ 32 - po) = 8 + flen (data p)).
      { unfold FileIndexModel.w32, FileIndexModel.po.
        replace (flen (file p) + 2 ^ 32 - 4 * n) with (8 + flen (data p) + 1 * 2 ^ 32) by lia.
        rewrite N.mod_add by discriminate. apply N.mod_small. lia. }
      rewrite Ep. repeat split; try lia.
      * rewrite <- (app_nil_r (x :: v)) at 2. apply wv_pos; [discriminate|reflexivity|discriminate|constructor].
      * pose proof (wv_len (x :: v) 0). rewrite !flen_app. lia.
Qed.

(** ** Additions *)

Definition oldl (P : parts) (d : keydata) (l : list L) : Prop :=
  (slot P (kd_slot d) = 0 /\ l = []) \/ (exists k', holds P (kd_slot d) k' l /\ leq k' (kd_key d) = true).

Lemma write_adds_ok P ds : forall p, shape p ->
  (forall d, In d ds -> kd_add d <> []) ->
  (forall d l, In d ds -> oldl P d l -> vpos_ok (data p) (kd_pos d) l /\ kd_n d = Some (N.of_nat (length l))) ->
  exists g ds', write_adds L enc n (file p) ds = (file (ext p g), ds') /\
  (flen (file (ext p g)) < 2 ^ 32 ->
   Forall2 (fun d d' => kd_key d' = kd_key d /\ kd_slot d' = kd_slot d /\ kd_serial d' = kd_serial d /\
     forall l, oldl P d l -> vpos_ok (data p ++ g) (kd_pos d') (kd_add d ++ l) /\
                             kd_n d' = Some (N.of_nat (length (kd_add d ++ l)))) ds ds').
Proof.
  induction ds as [|d ds IH]; intros p Sh Ha Hp.
  - exists [], []. rewrite file_ext, app_nil_r. split; [reflexivity|]. constructor.
  - set (w := write_values (kd_add d) (kd_pos d)).
    destruct (IH (ext p w) (shape_ext _ _ Sh)) as [g [l [E1 E3]]].
    { intros x Hx. apply Ha. right. exact Hx. }
    { intros x l Hx Ho. destruct (Hp x l (or_intror Hx) Ho) as [A B]. split; [|exact B].
      cbn [data ext]. apply vpos_app. exact A. }
    rewrite ext_ext in *. rewrite file_ext in E1.
    exists (w ++ g). eexists. cbn [write_adds]. fold w. rewrite E1. split; [reflexivity|].
    intros B. constructor; [|cbn [data ext] in E3; rewrite app_assoc; apply E3; exact B].
    cbn. repeat split.
    + destruct (Hp d l0 (or_introl eq_refl) H) as [[A1 [A2 [A3 A4]]] A5].
      pose proof (file_len _ Sh) as FL.
      replace (flen (file p) - po) with (8 + flen (data p)) by (unfold FileIndexModel.po; lia).
      apply wv_pos; try assumption. apply Ha. left. reflexivity.
    + pose proof (file_len _ Sh) as FL. unfold FileIndexModel.po. lia.
    + pose proof (file_len _ Sh) as FL. rewrite file_ext, flen_app in B. unfold FileIndexModel.po. lia.
    + destruct (Hp d l0 (or_introl eq_refl) H) as [[A1 [A2 [A3 A4]]] A5].
      pose proof (wv_len (kd_add d) (kd_pos d)) as WL. fold w in WL. rewrite !flen_app, app_length. lia.
    + destruct (Hp d l0 (or_introl eq_refl) H) as [[A1 [A2 [A3 A4]]] A5].
      rewrite A5. rewrite app_length. f_equal. lia.
Qed.

(** ** Key entries *)

Lemma write_keys_ok ds : forall p, shape p ->
  (forall d, In d ds -> exists nv, kd_n d = Some nv /\ nv < 2 ^ 32 /\ kd_pos d < 2 ^ 32) ->
  exists g ds', write_keys L enc n (file p) ds = (file (ext p g), ds') /\
  (flen (file (ext p g)) < 2 ^ 32 ->
   Forall2 (fun d d' => kd_key d' = kd_key d /\ kd_slot d' = kd_slot d /\ kd_serial d' = kd_serial d /\
     kd_pos d' < 2 ^ 32 /\ kd_pos d' <> 0 /\
     exists nv, kd_n d = Some nv /\ is_entry (data p ++ g) (kd_pos d') nv (kd_pos d) (kd_key d)) ds ds').
Proof.
  induction ds as [|d ds IH]; intros p Sh Hp.
  - exists [], []. rewrite file_ext, app_nil_r. split; [reflexivity|]. constructor.
  - destruct (Hp d (or_introl eq_refl)) as [nv [A1 [A2 A3]]].
    set (w := put_4bytes nv ++ put_4bytes (kd_pos d) ++ enc (kd_key d)).
    destruct (IH (ext p w) (shape_ext _ _ Sh)) as [g [l [E1 E3]]].
    { intros x Hx. apply Hp. right. exact Hx. }
    rewrite ext_ext in *. rewrite file_ext in E1.
    exists (w ++ g). eexists. cbn [write_keys]. rewrite A1. fold w. rewrite E1. split; [reflexivity|].
    intros B. constructor; [|cbn [data ext] in E3; rewrite app_assoc; apply E3; exact B].
    pose proof (file_len _ Sh) as FL. rewrite file_ext, flen_app in B.
    cbn. replace (flen (file p) - po) with (8 + flen (data p)) by (unfold FileIndexModel.po; lia).
    split; [reflexivity|]. split; [reflexivity|]. split; [reflexivity|]. split; [lia|]. split; [lia|].
    exists nv. split; [exact A1|]. repeat split; try assumption; try lia.
    exists g. rewrite at_end. unfold w. rewrite <- !app_assoc. reflexivity.
Qed.

(** ** Offsets *)

Definition set_off (p : parts) (s w : N) : parts :=
  {| hd := hd p; offs := upd (N.to_nat s) w (offs p); data := data p |}.
Lemma patch_ok p s w : shape p -> s < n -> patch (file p) (8 + s * 4) (put_4bytes w) = file (set_off p s w).
Proof.
  intros [A [B C]] H. unfold patch, file, set_off, upd. cbn [hd offs data].
  rewrite put_4bytes_len.
  replace (N.to_nat (8 + s * 4)) with (length (hd p) + 4 * N.to_nat s)%nat by lia.
  rewrite firstn_app_2. rewrite <- Nat.add_assoc. rewrite skip_app_ge by lia.
  replace (_ - length (hd p))%nat with (4 * S (N.to_nat s))%nat by lia.
  rewrite firstn_app, (skip_app_le (words _)) by (rewrite words_len; lia).
  rewrite words_first, words_skip, words_len.
  replace (4 * N.to_nat s - 4 * length (offs p))%nat with O by lia.
  cbn [firstn]. rewrite app_nil_r. rewrite words_app.
  change (words (w :: skipn (S (N.to_nat s)) (offs p))) with (put_4bytes w ++ words (skipn (S (N.to_nat s)) (offs p))).
  rewrite <- !app_assoc. reflexivity.
Qed.
Lemma upd_forall (Q : N -> Prop) s w l : Q w -> Forall Q l -> Forall Q (upd s w l).
Proof.
  intros H F. unfold upd. apply Forall_app. split.
  - rewrite <- (firstn_skipn s l) in F. apply Forall_app in F. apply F.
  - constructor; [exact H|]. rewrite <- (firstn_skipn (S s) l) in F. apply Forall_app in F. apply F.
Qed.
Lemma set_off_shape p s w : shape p -> s < n -> w < 2 ^ 32 -> shape (set_off p s w).
Proof.
  intros [A [B C]] H Hw. split; [exact A|]. split.
  - cbn [offs set_off]. rewrite upd_len by lia. exact B.
  - cbn [offs set_off]. apply upd_forall; assumption.
Qed.
Lemma set_off_same p s w : shape p -> s < n -> slot (set_off p s w) s = w.
Proof. intros [A [B C]] H. unfold slot, set_off. cbn [offs]. apply upd_same. lia. Qed.
Lemma set_off_other p s w i : shape p -> s < n -> i <> s -> slot (set_off p s w) i = slot p i.
Proof. intros [A [B C]] H D. unfold slot, set_off. cbn [offs]. apply upd_other; lia. Qed.

Lemma write_offsets_ok es : forall p, shape p -> NoDup (map kd_slot es) ->
  (forall d, In d es -> kd_slot d < n /\ kd_pos d < 2 ^ 32) ->
  exists p', fold_left (write_offset L) es (file p) = file p' /\ shape p' /\ data p' = data p /\ hd p' = hd p /\
  (forall d, In d es -> slot p' (kd_slot d) = kd_pos d) /\
  (forall s, ~ In s (map kd_slot es) -> slot p' s = slot p s).
Proof.
  induction es as [|d es IH]; intros p Sh ND H.
  - exists p. split; [reflexivity|]. split; [exact Sh|]. split; [reflexivity|]. split; [reflexivity|].
    split; [intros d []|reflexivity].
  - cbn [map] in ND. inversion ND as [|? ? N1 N2]; subst.
    destruct (H d (or_introl eq_refl)) as [Hs Hp].
    destruct (IH (set_off p (kd_slot d) (kd_pos d)) (set_off_shape _ _ _ Sh Hs Hp) N2) as [p' [E [S1 [S2 [S3 [S4 S5]]]]]].
    { intros x Hx. apply H. right. exact Hx. }
    exists p'. cbn [fold_left]. unfold write_offset at 2. rewrite patch_ok by assumption.
    split; [exact E|]. split; [exact S1|]. split; [exact S2|]. split; [exact S3|]. split.
    + intros x [<-|Hx]; [|apply S4; exact Hx]. rewrite (S5 _ N1). apply set_off_same; assumption.
    + intros s Hn. cbn [map] in Hn. rewrite S5 by (intros X; apply Hn; right; exact X).
      apply set_off_other; try assumption. intros ->. apply Hn. left. reflexivity.
Qed.

(** The new offsets lead to the new entries. *)
(** What writing the offsets does to the words of the slots. *)
Definition wrote (P p p' : parts) (es : list keydata) : Prop :=
  data p' = data p /\ NoDup (map kd_slot es) /\ (forall d, In d es -> kd_slot d < n /\ kd_pos d < 2 ^ 32) /\
  (forall d, In d es -> slot p' (kd_slot d) = kd_pos d) /\
  (forall s, ~ In s (map kd_slot es) -> slot p' s = slot P s).

Lemma finish P p es (V : keydata -> list L -> Prop) :
  wf P -> shape p -> offs p = offs P -> (exists g, data p = data P ++ g) -> flen (file p) < 2 ^ 32 ->
  NoDup (map kd_slot es) ->
  (forall d, In d es -> kd_pos d < 2 ^ 32 /\ kd_pos d <> 0 /\ exists l vp, V d l /\
     is_entry (data p) (kd_pos d) (N.of_nat (length l)) vp (kd_key d) /\ vpos_ok (data p) vp l) ->
  (forall d, In d es -> slot P (kd_slot d) = 0 \/
     exists k' l, holds P (kd_slot d) k' l /\ leq k' (kd_key d) = true) ->
  (forall d, In d es -> exists j, kd_slot d = probe (kd_key d) j /\ forall i, i < j ->
     other P (kd_key d) (probe (kd_key d) i) \/
     exists d', In d' es /\ kd_slot d' = probe (kd_key d) i /\ leq (kd_key d) (kd_key d') = false) ->
  exists p', write_offsets L (file p) es = file p' /\ wrote P p p' es /\ wf p' /\
  (forall d, In d es -> exists l, V d l /\ holds p' (kd_slot d) (kd_key d) l) /\
  (forall s k l, holds P s k l -> ~ In s (map kd_slot es) -> holds p' s k l) /\
  (forall s k l, holds p' s k l ->
     (exists d, In d es /\ s = kd_slot d /\ k = kd_key d) \/ (holds P s k l /\ ~ In s (map kd_slot es))).
Proof.
  intros W Sh Eo [g Eg] B ND H1 H2 H3.
  assert (Hslot : forall d, In d es -> kd_slot d < n).
  { intros d Hd. destruct (H3 d Hd) as [j [-> _]]. apply probe_lt. }
  assert (Pm : Permutation (qsort kd_pos es) es) by apply qsort_perm.
  destruct (write_offsets_ok (qsort kd_pos es) p Sh) as [p' [E [S1 [S2 [S3 [S4 S5]]]]]].
  { apply (Permutation_NoDup (Permutation_map _ (Permutation_sym Pm))). exact ND. }
  { intros d Hd. apply (Permutation_in _ Pm) in Hd. split; [apply Hslot; exact Hd|apply (H1 d Hd)]. }
  assert (S4' : forall d, In d es -> slot p' (kd_slot d) = kd_pos d).
  { intros d Hd. apply S4. apply (Permutation_in _ (Permutation_sym Pm)). exact Hd. }
  assert (S5' : forall s, ~ In s (map kd_slot es) -> slot p' s = slot P s).
  { intros s Hs. rewrite S5; [unfold slot; rewrite Eo; reflexivity|].
    intros X. apply Hs. apply (Permutation_in _ (Permutation_map _ Pm)). exact X. }
  assert (C1 : forall d, In d es -> exists l, V d l /\ holds p' (kd_slot d) (kd_key d) l).
  { intros d Hd. destruct (H1 d Hd) as [A1 [A2 [l [vp [A3 [A4 [A5 [A6 [A7 A8]]]]]]]]].
    exists l. split; [exact A3|]. split; [apply Hslot; exact Hd|]. rewrite (S4' d Hd). split; [exact A2|].
    exists vp. rewrite S2. repeat split; try assumption; try apply A4. }
  assert (C2 : forall s k l, holds P s k l -> ~ In s (map kd_slot es) -> holds p' s k l).
  { intros s k l H Hn. apply (holds_ext _ g) in H. destruct H as [A1 [A2 A3]]. split; [exact A1|].
    assert (X : slot p' s = slot (ext P g) s) by (rewrite (S5' s Hn); reflexivity).
    rewrite X. split; [exact A2|]. rewrite S2, Eg. exact A3. }
  assert (D : forall s, In s (map kd_slot es) \/ ~ In s (map kd_slot es)).
  { intros s. destruct (in_dec N.eq_dec s (map kd_slot es)); [left|right]; assumption. }
  assert (C3 : forall s k l, holds p' s k l ->
     (exists d, In d es /\ s = kd_slot d /\ k = kd_key d) \/ (holds P s k l /\ ~ In s (map kd_slot es))).
  { intros s k l H. destruct (D s) as [X|X].
    - left. apply in_map_iff in X. destruct X as [d [<- Hd]]. exists d. repeat split; try assumption.
      destruct (C1 d Hd) as [l' [_ H']]. apply (holds_det _ _ _ _ _ _ H H').
    - right. split; [|exact X]. destruct (wf_slot _ W s (proj1 H)) as [Z|[k' [l' H']]].
      + destruct H as [_ [H _]]. rewrite (S5' s X) in H. contradiction.
      + destruct (holds_det _ _ _ _ _ _ H (C2 _ _ _ H' X)) as [-> ->]. exact H'. }
  (* a slot that held another key still does *)
  assert (O : forall k s, other P k s -> other p' k s).
  { intros k s [k' [l [H E']]]. destruct (D s) as [X|X].
    - apply in_map_iff in X. destruct X as [d [<- Hd]]. destruct (C1 d Hd) as [l' [_ H']].
      exists (kd_key d), l'. split; [exact H'|].
      destruct (H2 d Hd) as [Z|[k2 [l2 [Hh El]]]]; [destruct H as [_ [H _]]; contradiction|].
      destruct (holds_det _ _ _ _ _ _ H Hh) as [-> ->].
      destruct (leq k (kd_key d)) eqn:F; [|reflexivity].
      rewrite (leq_trans k (kd_key d) k2 F (leq_sym _ _ El)) in E'. discriminate E'.
    - exists k', l. split; [apply C2; assumption|exact E']. }
  exists p'. split; [exact E|]. split.
  { split; [exact S2|]. split; [exact ND|]. split; [|split; [exact S4'|exact S5']].
    intros d Hd. split; [apply Hslot; exact Hd|apply (H1 d Hd)]. }
  split; [|split; [exact C1|split; [exact C2|exact C3]]].
  constructor.
  - exact S1.
  - intros s Hs. destruct (D s) as [X|X].
    + right. apply in_map_iff in X. destruct X as [d [<- Hd]]. destruct (C1 d Hd) as [l' [_ H']].
      exists (kd_key d), l'. exact H'.
    + destruct (wf_slot _ W s Hs) as [Z|[k [l H]]]; [left; rewrite (S5' s X); exact Z|].
      right. exists k, l. apply C2; assumption.
  - intros s k l H. destruct (C3 _ _ _ H) as [[d [Hd [-> ->]]]|[H' X]].
    + destruct (H3 d Hd) as [j [Ej Hj]]. exists j. split; [exact Ej|]. intros i Hi.
      destruct (Hj i Hi) as [Y|[d' [Hd' [E1 E2]]]]; [apply O; exact Y|].
      destruct (C1 d' Hd') as [l' [_ H']]. exists (kd_key d'), l'. rewrite <- E1. split; assumption.
    + destruct (wf_probe _ W _ _ _ H') as [j [Ej Hj]]. exists j. split; [exact Ej|].
      intros i Hi. apply O. apply Hj. exact Hi.
  - replace (flen (file p')) with (flen (file p)); [exact B|]. rewrite !file_len by assumption. rewrite S2. reflexivity.
Qed.

(** ** Lists *)

Lemma F2_in_r {A B} (R : A -> B -> Prop) l l' y : Forall2 R l l' -> In y l' -> exists x, In x l /\ R x y.
Proof.
  intros F. induction F as [|a b l l' H F IH]; intros [].
  - subst. exists a. split; [left; reflexivity|exact H].
  - destruct (IH H0) as [x [X1 X2]]. exists x. split; [right; exact X1|exact X2].
Qed.
Lemma F2_map {A B C} (f : A -> C) (g : B -> C) l l' : Forall2 (fun x y => g y = f x) l l' -> map g l' = map f l.
Proof. intros F. induction F as [|a b l l' H F IH]; [reflexivity|]. cbn [map]. rewrite H, IH. reflexivity. Qed.
Lemma F2_impl {A B} (R S : A -> B -> Prop) l l' : (forall x y, R x y -> S x y) -> Forall2 R l l' -> Forall2 S l l'.
Proof. intros H F. induction F; constructor; auto. Qed.
Lemma F2_app_l {A B} (R : A -> B -> Prop) a b l : Forall2 R (a ++ b) l ->
  Forall2 R a (firstn (length a) l) /\ Forall2 R b (skipn (length a) l).
Proof.
  revert l. induction a as [|x a IH]; intros l F; cbn [length firstn skipn app] in *.
  - split; [constructor|exact F].
  - inversion F as [|? y ? l' H F']; subst. destruct (IH _ F') as [X Y]. split; [constructor; assumption|exact Y].
Qed.
Lemma nodup_inj {A B} (f : A -> B) l x y : NoDup (map f l) -> In x l -> In y l -> f x = f y -> x = y.
Proof.
  induction l as [|a l IH]; intros ND Hx Hy E; [destruct Hx|]. cbn [map] in ND. inversion ND as [|? ? N1 N2]; subst.
  destruct Hx as [->|Hx], Hy as [->|Hy]; try reflexivity.
  - exfalso. apply N1. rewrite E. apply in_map. exact Hy.
  - exfalso. apply N1. rewrite <- E. apply in_map. exact Hx.
  - apply IH; assumption.
Qed.
Lemma nodup_map {A B C} (f : A -> B) (g : A -> C) l : NoDup (map f l) ->
  (forall x y, In x l -> In y l -> g x = g y -> f x = f y) -> NoDup (map g l).
Proof.
  induction l as [|a l IH]; intros ND H; [constructor|]. cbn [map] in *. inversion ND as [|? ? N1 N2]; subst.
  constructor.
  - intros Hi. apply in_map_iff in Hi. destruct Hi as [b [E Hb]]. apply N1.
    rewrite <- (H b a); [apply in_map; exact Hb|right; exact Hb|left; reflexivity|exact E].
  - apply IH; [exact N2|]. intros x y Hx Hy. apply H; right; assumption.
Qed.

Inductive ordpairs {A} (R : A -> A -> Prop) : list A -> Prop :=
| op_nil : ordpairs R []
| op_cons : forall x l, (forall y, In y l -> R x y) -> ordpairs R l -> ordpairs R (x :: l).
Lemma op_app {A} (R : A -> A -> Prop) a b : ordpairs R (a ++ b) ->
  ordpairs R a /\ ordpairs R b /\ forall x y, In x a -> In y b -> R x y.
Proof.
  induction a as [|x a IH]; intros H; cbn [app] in H.
  - repeat split; [constructor|exact H|intros ? ? []].
  - inversion H as [|? ? H1 H2]; subst. destruct (IH H2) as [X [Y Z]]. split; [|split; [exact Y|]].
    + constructor; [|exact X]. intros y Hy. apply H1. apply in_or_app. left. exact Hy.
    + intros u v [<-|Hu] Hv; [apply H1; apply in_or_app; right; exact Hv|apply Z; assumption].
Qed.
Lemma op_inj {A} (f : A -> L) l x y : ordpairs (fun a b => leq a b = false) (map f l) ->
  In x l -> In y l -> leq (f x) (f y) = true -> x = y.
Proof.
  induction l as [|a l IH]; intros O Hx Hy E; [destruct Hx|]. cbn [map] in O. inversion O as [|? ? O1 O2]; subst.
  destruct Hx as [->|Hx], Hy as [->|Hy]; try reflexivity.
  - rewrite O1 in E; [discriminate E|apply in_map; exact Hy].
  - apply leq_sym in E. rewrite O1 in E; [discriminate E|apply in_map; exact Hx].
  - apply IH; assumption.
Qed.

Inductive ssorted {A} (key : A -> N) : list A -> Prop :=
| ss_nil : ssorted key []
| ss_cons : forall x l, (forall y, In y l -> key x <= key y) -> ssorted key l -> ssorted key (x :: l).
Lemma insert_sorted {A} (key : A -> N) x l : ssorted key l -> ssorted key (insert key x l).
Proof.
  induction l as [|y l IH]; intros H; cbn [insert].
  - constructor; [intros ? []|constructor].
  - inversion H as [|? ? H1 H2]; subst. destruct (N.leb_spec (key x) (key y)) as [E|E].
    + constructor; [|exact H]. intros z [<-|Hz]; [exact E|]. specialize (H1 z Hz). lia.
    + constructor; [|apply IH; exact H2]. intros z Hz. apply (Permutation_in _ (insert_perm _ _ _)) in Hz.
      destruct Hz as [<-|Hz]; [lia|apply H1; exact Hz].
Qed.
Lemma qsort_sorted {A} (key : A -> N) l : ssorted key (qsort key l).
Proof. induction l as [|x l IH]; [constructor|]. cbn [qsort fold_right]. apply insert_sorted. exact IH. Qed.
Lemma ssorted_map {A} (key : A -> N) l : ssorted key l -> ssorted (fun x => x) (map key l).
Proof.
  intros H. induction H as [|x l H1 H2 IH]; [constructor|]. cbn [map]. constructor; [|exact IH].
  intros y Hy. apply in_map_iff in Hy. destruct Hy as [z [<- Hz]]. apply H1. exact Hz.
Qed.
Lemma ssorted_eq (a b : list N) : ssorted (fun x => x) a -> ssorted (fun x => x) b -> Permutation a b -> a = b.
Proof.
  intros Ha. revert b. induction Ha as [|x a H1 H2 IH]; intros b Hb P.
  - apply Permutation_nil in P. symmetry. exact P.
  - inversion Hb as [|y b' H3 H4]; subst.
    + apply Permutation_sym, Permutation_nil in P. discriminate P.
    + assert (x = y) as ->.
      { assert (X : In x (y :: b')) by (apply (Permutation_in _ P); left; reflexivity).
        assert (Y : In y (x :: a)) by (apply (Permutation_in _ (Permutation_sym P)); left; reflexivity).
        destruct X as [X|X]; [congruence|]. destruct Y as [Y|Y]; [congruence|].
        specialize (H1 y Y). specialize (H3 x X). cbn in H1, H3. lia. }
      f_equal. apply IH; [exact H4|]. exact (Permutation_cons_inv P).
Qed.

Fixpoint upto (s : N) (m : nat) : list N := match m with O => [] | S m' => s :: upto (s + 1) m' end.
Lemma upto_ge m : forall s x, In x (upto s m) -> s <= x.
Proof. induction m as [|m IH]; intros s x []; [lia|]. apply IH in H. lia. Qed.
Lemma upto_sorted m : forall s, ssorted (fun x => x) (upto s m).
Proof. induction m as [|m IH]; intros s; cbn [upto]; constructor; [|apply IH]. intros y Hy. apply upto_ge in Hy. lia. Qed.
Lemma upto_nodup m : forall s, NoDup (upto s m).
Proof. induction m as [|m IH]; intros s; cbn [upto]; constructor; [|apply IH]. intros Hy. apply upto_ge in Hy. lia. Qed.
Lemma upto_app a : forall s b, upto s (a + b) = upto s a ++ upto (s + N.of_nat a) b.
Proof.
  induction a as [|a IH]; intros s b; cbn [upto Nat.add app]; [rewrite N.add_0_r; reflexivity|].
  rewrite IH. do 3 f_equal. lia.
Qed.

(** ** What a save is to do *)

Definition assoc (k : L) (l : list (L * list L)) : option (list L) :=
  match find (fun kv => leq k (fst kv)) l with Some kv => Some (snd kv) | None => None end.
Notation minus := (FileIndexModel.minus L leq).
Notation commits := (FileIndexModel.commits L).
Notation c_adds := (FileIndexModel.c_adds L).
Notation c_drops := (FileIndexModel.c_drops L).
Notation c_stores := (FileIndexModel.c_stores L).
Definition spec (c : commits) (k : L) (l : list L) : list L :=
  match assoc k (c_adds c) with
  | Some v => v ++ l
  | None => match assoc k (c_stores c) with
            | Some v => v
            | None => match assoc k (c_drops c) with
                      | Some v => minus (choice_of l) v
                      | None => l
                      end
            end
  end.
Definition touched (c : commits) : list L := map fst (c_adds c ++ c_stores c ++ c_drops c).

Lemma leq_l k k' x : leq k k' = true -> leq k x = leq k' x.
Proof.
  intros E. destruct (leq k x) eqn:A, (leq k' x) eqn:B; try reflexivity.
  - rewrite (leq_trans k' k x (leq_sym _ _ E) A) in B. discriminate B.
  - rewrite (leq_trans k k' x E B) in A. discriminate A.
Qed.
Lemma assoc_leq k k' l : leq k k' = true -> assoc k l = assoc k' l.
Proof.
  intros E. unfold assoc. induction l as [|kv l IH]; [reflexivity|]. cbn [find].
  rewrite (leq_l _ _ (fst kv) E). destruct (leq k' (fst kv)); [reflexivity|exact IH].
Qed.
Lemma spec_leq c k k' l : leq k k' = true -> spec c k l = spec c k' l.
Proof. intros E. unfold spec. rewrite !(assoc_leq k k' _ E). reflexivity. Qed.
Lemma assoc_none k l : (forall x, In x (map fst l) -> leq k x = false) -> assoc k l = None.
Proof.
  intros H. unfold assoc. induction l as [|kv l IH]; [reflexivity|]. cbn [find].
  rewrite H by (left; reflexivity). apply IH. intros x Hx. apply H. right. exact Hx.
Qed.
Lemma assoc_in k v l : ordpairs (fun a b => leq a b = false) (map fst l) -> In (k, v) l -> assoc k l = Some v.
Proof.
  induction l as [|kv l IH]; intros O Hi; [destruct Hi|]. cbn [map] in O. inversion O as [|? ? O1 O2]; subst.
  unfold assoc. cbn [find]. destruct Hi as [->|Hi].
  - cbn [fst]. rewrite leq_refl. reflexivity.
  - destruct (leq k (fst kv)) eqn:E; [|apply IH; assumption].
    apply leq_sym in E. rewrite O1 in E; [discriminate E|]. apply in_map_iff. exists (k, v). split; [reflexivity|exact Hi].
Qed.
Lemma find_leq k x l : In x (map fst l) -> leq k x = true -> assoc k l <> None.
Proof.
  unfold assoc. induction l as [|kv l IH]; intros Hi E; [destruct Hi|]. cbn [find].
  destruct (leq k (fst kv)) eqn:F; [discriminate|]. destruct Hi as [<-|Hi]; [congruence|apply IH; assumption].
Qed.
Lemma untouched c k l : (forall x, In x (touched c) -> leq k x = false) -> spec c k l = l.
Proof.
  intros H. unfold spec, touched in *. rewrite !map_app in H.
  rewrite !assoc_none; [reflexivity|..]; intros x Hx; apply H; rewrite !in_app_iff; auto.
Qed.
Lemma not_touched_dec c k : (forall x, In x (touched c) -> leq k x = false) \/ exists x, In x (touched c) /\ leq k x = true.
Proof.
  induction (touched c) as [|x l IH]; [left; intros ? []|].
  destruct (leq k x) eqn:E; [right; exists x; split; [left; reflexivity|exact E]|].
  destruct IH as [IH|[y [Y1 Y2]]]; [left; intros z [<-|Hz]; [exact E|apply IH; exact Hz]|].
  right. exists y. split; [right; exact Y1|exact Y2].
Qed.
Lemma value_leq p k k' l : leq k k' = true -> value p k l -> value p k' l.
Proof.
  intros E [[s [k1 [E1 H1]]]|[-> H]].
  - left. exists s, k1. split; [|exact H1]. rewrite <- (leq_l _ _ k1 E). exact E1.
  - right. split; [reflexivity|]. intros s k1 l1 H1. rewrite <- (leq_l _ _ k1 E). exact (H _ _ _ H1).
Qed.

(** ** The parts of a save *)

Lemma drop_vals_ok p cached adds left drops dvs : wf p ->
  (forall k v, In (k, v) drops -> cached k = None /\ adds k = None /\ redundant k = false) ->
  drop_vals L leq hash dec n redundant (file p) cached adds left drops = Ok dvs ->
  Forall2 (fun kv kv' => fst kv' = fst kv /\ forall l, value p (fst kv) l -> snd kv' = minus (choice_of l) (snd kv)) drops dvs.
Proof.
  intros W. revert dvs. induction drops as [|[k v] drops IH]; intros dvs H E; cbn [drop_vals] in E.
  - injection E as <-. constructor.
  - destruct (H k v (or_introl eq_refl)) as [H1 [H2 H3]].
    unfold fetchn1 in E. rewrite H3, H1, H2 in E. rewrite <- probe_0 in E.
    destruct (value_ex p k (wf_slot _ W)) as [l0 V0].
    pose proof (fetchn_loop_ok p k l0 None W V0 left 0) as F. cbv zeta in F.
    destruct (fetchn_loop L leq hash dec n (file p) k None left (probe k 0)) as [a| | |] eqn:Ef; try discriminate E.
    destruct (drop_vals L leq hash dec n redundant (file p) cached adds left drops) as [dvs'| | |] eqn:Ed; try discriminate E.
    injection E as <-. constructor; [|apply IH; [|reflexivity]].
    + cbn [fst snd]. split; [reflexivity|]. intros l V.
      rewrite (value_det p k k l l0 W (leq_refl k) V V0).
      destruct F as [X|[X|[X1 X2]]]; [intros i Hi; lia|discriminate X|injection X as ->; reflexivity|].
      injection X2 as ->. subst l0. reflexivity.
    + intros k1 v1 Hi. apply (H k1 v1). right. exact Hi.
Qed.

Lemma add_kds_serial adds : forall s, map kd_serial (add_kds L s adds) = upto s (length adds).
Proof. induction adds as [|[k v] adds IH]; intros s; [reflexivity|]. cbn. rewrite IH. reflexivity. Qed.
Lemma add_kds_key adds : forall s, map kd_key (add_kds L s adds) = map fst adds.
Proof. induction adds as [|[k v] adds IH]; intros s; [reflexivity|]. cbn. rewrite IH. reflexivity. Qed.
Lemma add_kds_len adds : forall s, length (add_kds L s adds) = length adds.
Proof. induction adds as [|[k v] adds IH]; intros s; [reflexivity|]. cbn. rewrite IH. reflexivity. Qed.
Lemma add_kds_in adds d : forall s, In d (add_kds L s adds) -> In (kd_key d, kd_add d) adds /\ kd_n d = None.
Proof.
  induction adds as [|[k v] adds IH]; intros s []; [subst; cbn; split; [left|]; reflexivity|].
  destruct (IH _ H) as [A B]. split; [right; exact A|exact B].
Qed.
Lemma edit_kds_serial kvs : forall s, map kd_serial (edit_kds s kvs) = upto s (length kvs).
Proof. induction kvs as [|[k v] kvs IH]; intros s; [reflexivity|]. cbn. rewrite IH. reflexivity. Qed.
Lemma edit_kds_key kvs : forall s, map kd_key (edit_kds s kvs) = map fst kvs.
Proof. induction kvs as [|[k v] kvs IH]; intros s; [reflexivity|]. cbn. rewrite IH. reflexivity. Qed.
Lemma edit_kds_app a : forall s b, edit_kds s (a ++ b) = edit_kds s a ++ edit_kds (s + N.of_nat (length a)) b.
Proof.
  induction a as [|[k v] a IH]; intros s b; cbn [edit_kds app length]; [rewrite N.add_0_r; reflexivity|].
  rewrite IH. do 3 f_equal. lia.
Qed.

Lemma edits_ok D (R : keydata -> keydata -> Prop) kvs : forall serial dvl B,
  Forall2 (fun kv dv => vpos_ok D (edit_vp (snd (dv : keydata * N))) (snd (kv : L * list L))) kvs dvl ->
  Forall2 R (edit_kds serial kvs) B ->
  Forall2 (fun b e => kd_key e = kd_key b /\ kd_slot e = kd_slot b /\ kd_serial e = kd_serial b) B
          (map (edit_pos L n) (combine B (map snd dvl))) /\
  forall e, In e (map (edit_pos L n) (combine B (map snd dvl))) ->
  exists kv d0 b, In kv kvs /\ R d0 b /\ In b B /\ kd_key d0 = fst kv /\ kd_n d0 = Some (N.of_nat (length (snd kv))) /\
    kd_key e = kd_key b /\ kd_slot e = kd_slot b /\ kd_n e = kd_n b /\ vpos_ok D (kd_pos e) (snd kv).
Proof.
  induction kvs as [|[k v] kvs IH]; intros serial dvl B F G.
  - inversion F; subst. inversion G; subst. cbn. split; [constructor|intros ? []].
  - inversion F as [|? dv ? dvl' F1 F2]; subst. cbn [edit_kds] in G.
    inversion G as [|? b ? B' G1 G2]; subst. destruct (IH _ _ _ F2 G2) as [X Y].
    cbn [map combine]. split.
    + constructor; [|exact X]. cbn. repeat split.
    + intros e [<-|He].
      * exists (k, v). eexists _, b. split; [left; reflexivity|]. split; [exact G1|]. split; [left; reflexivity|].
        cbn. repeat split; try apply F1.
      * destruct (Y e He) as [kv [d0 [b' [Y1 [Y2 [Y3 Y4]]]]]]. exists kv, d0, b'.
        split; [right; exact Y1|]. split; [exact Y2|]. split; [right; exact Y3|exact Y4].
Qed.

Lemma align (R : keydata -> keydata -> Prop) base l : forall l',
  NoDup (map kd_serial base) -> (forall d, In d l -> In d base) -> map kd_serial l' = map kd_serial l ->
  (forall d, In d l' -> exists d0, In d0 base /\ kd_serial d = kd_serial d0 /\ R d0 d) -> Forall2 R l l'.
Proof.
  induction l as [|x l IH]; intros [|y l'] ND Hb E H; cbn [map] in E; try discriminate E; [constructor|].
  injection E as E1 E2. constructor.
  - destruct (H y (or_introl eq_refl)) as [d0 [X1 [X2 X3]]].
    rewrite <- (nodup_inj kd_serial base d0 x ND X1 (Hb x (or_introl eq_refl))); [exact X3|congruence].
  - apply IH; try assumption; intros d Hd; [apply Hb|apply H]; right; exact Hd.
Qed.

(** Nothing is found behind a free slot. *)
Lemma search_free p k j l : wf p -> value p k l ->
  (forall i, i < j -> other p k (probe k i) \/ slot p (probe k i) = 0) -> slot p (probe k j) = 0 -> l = [].
Proof.
  intros W [[s [k' [E H]]]|[-> _]] Ho Hz; [|reflexivity]. exfalso.
  destruct (wf_probe _ W _ _ _ H) as [j' [-> Hj']]. rewrite <- (probe_leq k k' _ E) in H.
  destruct (N.lt_trichotomy j j') as [X|[X|X]].
  - destruct (Hj' _ X) as [k1 [l1 [[_ [H1 _]] _]]]. rewrite <- (probe_leq k k' _ E) in H1. contradiction.
  - subst j'. destruct H as [_ [H _]]. contradiction.
  - destruct (Ho _ X) as [[k1 [l1 [H1 D]]]|Z].
    + destruct (holds_det _ _ _ _ _ _ H H1) as [<- _]. congruence.
    + destruct H as [_ [H _]]. contradiction.
Qed.


(** ** A whole save *)

(** Additions, stores and drops concern different keys. *)
Definition distinct (c : commits) : Prop := ordpairs (fun a b => leq a b = false) (touched c).

Notation save_data := (FileIndexModel.save_data L leq hash enc dec n redundant).
Notation save := (FileIndexModel.save L leq hash enc dec n redundant).

Definition V (p : parts) (c : commits) (d : keydata) (l : list L) : Prop :=
  forall lold, value p (kd_key d) lold -> l = spec c (kd_key d) lold.

Lemma save_data_ok p c cached adds left f4 es :
  wf p -> distinct c -> (forall k v, In (k, v) (c_adds c) -> v <> []) ->
  (forall k v, In (k, v) (c_drops c) -> cached k = None /\ adds k = None /\ redundant k = false) ->
  save_data cached adds left (file p) c = Ok (f4, es) -> flen f4 < 2 ^ 32 ->
  exists g, f4 = file (ext p g) /\
  exists p', write_offsets L f4 es = file p' /\ wrote p (ext p g) p' es /\ wf p' /\
  map kd_key es = touched c /\
  (forall d, In d es -> exists l, V p c d l /\ holds p' (kd_slot d) (kd_key d) l) /\
  (forall s k l, holds p s k l -> ~ In s (map kd_slot es) -> holds p' s k l) /\
  (forall s k l, holds p' s k l ->
     (exists d, In d es /\ s = kd_slot d /\ k = kd_key d) \/ (holds p s k l /\ ~ In s (map kd_slot es))) /\
  (forall d, In d es -> slot p (kd_slot d) = 0 \/
     exists k' l, holds p (kd_slot d) k' l /\ leq k' (kd_key d) = true).
Proof.
  intros W Di Ha Hd E B. unfold FileIndexModel.save_data in E.
  destruct (commit_vals_ok (c_stores c) p (N.of_nat (length (c_adds c))) (wf_shape _ W)) as [g1 [st [E1 [M1 F1]]]].
  rewrite E1 in E.
  set (p1 := ext p g1) in *.
  assert (W1 : flen (file p1) < 2 ^ 32 -> wf p1).
  { intros X. apply wf_ext; [exact W|]. rewrite <- file_ext. exact X. }
  destruct (drop_vals L leq hash dec n redundant (file p1) cached adds left (c_drops c)) as [dvs| | |] eqn:Ed; try discriminate E.
  destruct (commit_vals_ok dvs p1 (N.of_nat (length (c_adds c)) + N.of_nat (length (c_stores c))) (wf_shape _ W))
    as [g2 [dr [E2 [M2 F2]]]].
  rewrite E2 in E. set (p2 := ext p1 g2) in *.
  rewrite map_app, M1, M2, <- edit_kds_app in E.
  set (nA := N.of_nat (length (c_adds c))) in *. set (kvs := c_stores c ++ dvs) in *.
  set (ds0 := add_kds L 0 (c_adds c) ++ edit_kds nA kvs) in *.
  destruct (fetch_keydata L leq hash dec n (file p2) ds0) as [kds| | |] eqn:Ek; try discriminate E.
  set (kds' := qsort kd_serial kds) in *.
  set (A := firstn (N.to_nat nA) kds') in *. set (Bk := skipn (N.to_nat nA) kds') in *.
  set (edits := map (edit_pos L n) (combine Bk (map snd (st ++ dr)))) in *.
  destruct (write_adds L enc n (file p2) A) as [f3 adds'] eqn:Ew.
  injection E as E.
  (* the sizes *)
  assert (SZ : exists g3 g4, f3 = file (ext p2 g3) /\ f4 = file (ext (ext p2 g3) g4)).
  { assert (X : exists g3, f3 = file (ext p2 g3)).
    { clear -Ew. revert f3 adds' Ew. generalize p2. induction A as [|d A IH]; intros q f3 adds' Ew; cbn [write_adds] in Ew.
      - injection Ew as <- <-. exists []. rewrite file_ext, app_nil_r. reflexivity.
      - destruct (write_adds L enc n (file q ++ _) A) as [f' r] eqn:X. injection Ew as <- <-.
        rewrite <- file_ext in X. apply IH in X. destruct X as [g3 ->]. rewrite ext_ext. eexists. reflexivity. }
    destruct X as [g3 ->]. exists g3.
    assert (Y : exists g4, f4 = file (ext (ext p2 g3) g4)).
    { clear -E. revert f4 es E. generalize (ext p2 g3). induction (adds' ++ edits) as [|d A IH]; intros q f4 es E; cbn [write_keys] in E.
      - injection E as <- <-. exists []. rewrite file_ext, app_nil_r. reflexivity.
      - destruct (write_keys L enc n (file q ++ _) A) as [f' r] eqn:X. injection E as <- <-.
        rewrite <- file_ext in X. apply IH in X. destruct X as [g4 ->]. rewrite ext_ext. eexists. reflexivity. }
    destruct Y as [g4 ->]. exists g4. split; reflexivity. }
  destruct SZ as [g3 [g4 [-> ->]]].
  assert (B3 : flen (file (ext p2 g3)) < 2 ^ 32).
  { rewrite (file_ext (ext p2 g3)), flen_app in B. lia. }
  assert (B2 : flen (file p2) < 2 ^ 32).
  { rewrite (file_ext p2), flen_app in B3. lia. }
  assert (B1 : flen (file p1) < 2 ^ 32).
  { unfold p2 in B2. rewrite (file_ext p1), flen_app in B2. lia. }
  specialize (F1 B1). specialize (F2 B2). specialize (W1 B1).
  assert (P2 : p2 = ext p (g1 ++ g2)) by (unfold p2, p1; apply ext_ext).
  assert (W2 : wf p2).
  { apply wf_ext; [exact W1|]. rewrite <- file_ext. exact B2. }
  apply drop_vals_ok in Ed; [|exact W1|exact Hd].
  (* the entries asked for *)
  assert (Kd : map fst dvs = map fst (c_drops c)).
  { clear -Ed. induction Ed as [|a b l l' H F IH]; [reflexivity|]. cbn [map]. rewrite (proj1 H), IH. reflexivity. }
  assert (K0 : map kd_key ds0 = touched c).
  { unfold ds0, kvs, touched. rewrite map_app, add_kds_key, edit_kds_key, !map_app, Kd. reflexivity. }
  assert (S0 : map kd_serial ds0 = upto 0 (length (c_adds c) + length kvs)).
  { unfold ds0. rewrite map_app, add_kds_serial, edit_kds_serial, upto_app. reflexivity. }
  assert (ND0 : NoDup (map kd_serial ds0)) by (rewrite S0; apply upto_nodup).
  assert (J0 : forall d d', In d ds0 -> In d' ds0 -> leq (kd_key d) (kd_key d') = true -> d = d').
  { intros d d' X Y. apply (op_inj kd_key ds0); try assumption. rewrite K0. exact Di. }
  apply fetch_keydata_ok in Ek; [|exact W2|exact ND0]. destruct Ek as [[res I] Dn].
  assert (Pm : Permutation kds' kds) by apply qsort_perm.
  assert (S' : map kd_serial kds' = map kd_serial ds0).
  { apply ssorted_eq.
    - apply ssorted_map. apply qsort_sorted.
    - rewrite S0. apply upto_sorted.
    - apply (Permutation_trans (Permutation_map _ Pm)). exact (inv_serial _ _ _ _ I). }
  set (R := fun d0 d : keydata => kd_serial d = kd_serial d0 /\ kd_key d = kd_key d0 /\ kd_add d = kd_add d0 /\
     (exists j, kd_slot d = probe (kd_key d) j /\ forall i, i < j -> blocked p2 kds d (probe (kd_key d) i)) /\
     status p2 d0 d).
  assert (AL : Forall2 R ds0 kds').
  { apply (align R ds0); [exact ND0|auto|exact S'|].
    intros d Hi. apply (Permutation_in _ Pm) in Hi.
    destruct (inv_good _ _ _ _ I d Hi) as [d0 [X1 [X2 [X3 [X4 [X5 X6]]]]]].
    exists d0. split; [exact X1|]. split; [exact X2|]. unfold R. repeat (split; [assumption|]). exact X6. }
  assert (DN : forall d, In d kds' -> kd_done d = true).
  { intros d Hi. rewrite Forall_forall in Dn. apply Dn. apply (Permutation_in _ Pm). exact Hi. }
  assert (K' : map kd_key kds' = map kd_key ds0).
  { apply F2_map. apply (F2_impl R); [|exact AL]. intros x y X. apply X. }
  assert (ND' : NoDup (map kd_serial kds')) by (rewrite S'; exact ND0).
  assert (J' : forall d d', In d kds' -> In d' kds' -> leq (kd_key d) (kd_key d') = true -> d = d').
  { intros d d' X Y. apply (op_inj kd_key kds'); try assumption. rewrite K', K0. exact Di. }
  (* found or new *)
  assert (FN : forall d0 d, R d0 d -> kd_done d = true ->
     (slot p2 (kd_slot d) = 0 /\ kd_pos d = 0 /\ kd_n d = default (kd_n d0) 0) \/
     exists k' l, holds p2 (kd_slot d) k' l /\ leq k' (kd_key d) = true /\
       vpos_ok (data p2) (kd_pos d) l /\ kd_n d = default (kd_n d0) (N.of_nat (length l))).
  { intros d0 d [_ [_ [_ [_ X]]]] Y.
    destruct X as [X|[X|[X|X]]]; [destruct X; congruence|destruct X; congruence|left|right].
    - apply X.
    - destruct X as [_ [k' [l [X1 [X2 [X3 [X4 [X5 X6]]]]]]]]. exists k', l. split; [exact X1|]. split; [exact X2|].
      split; [|exact X6]. split; [exact X5|]. split; [exact X3|]. split; [exact X4|].
      destruct X1 as [_ [_ [vp [_ [_ [_ X1]]]]]]. exact X1. }
  assert (ISN : forall d, In d kds -> kd_done d = true).
  { intros d Hi. rewrite Forall_forall in Dn. apply Dn. exact Hi. }
  assert (SL : forall d, In d kds' -> slot p2 (kd_slot d) = 0 \/
     exists k' l, holds p2 (kd_slot d) k' l /\ leq k' (kd_key d) = true).
  { intros d Hi. destruct (F2_in_r _ _ _ _ AL Hi) as [d0 [_ X]]. destruct (FN _ _ X (DN d Hi)) as [Y|[k' [l [Y1 [Y2 _]]]]].
    - left. apply Y.
    - right. exists k', l. split; assumption. }
  assert (NS : NoDup (map kd_slot kds')).
  { apply (nodup_map kd_serial); [exact ND'|]. intros x y Hx Hy Es.
    assert (N1 : NoDup (map kd_slot (filter (isnew p2) kds))).
    { apply (Permutation_NoDup (Permutation_sym (inv_res _ _ _ _ I))). exact (inv_nodup _ _ _ _ I). }
    destruct (SL x Hx) as [X|[k1 [l1 [X1 X2]]]], (SL y Hy) as [Y|[k2 [l2 [Y1 Y2]]]].
    - f_equal. apply (nodup_inj kd_slot (filter (isnew p2) kds)); [exact N1| | |exact Es].
      + apply filter_In. split; [apply (Permutation_in _ Pm); exact Hx|]. unfold isnew. rewrite (DN x Hx), X. reflexivity.
      + apply filter_In. split; [apply (Permutation_in _ Pm); exact Hy|]. unfold isnew. rewrite (DN y Hy), Y. reflexivity.
    - exfalso. destruct Y1 as [_ [Y1 _]]. rewrite <- Es in Y1. contradiction.
    - exfalso. destruct X1 as [_ [X1 _]]. rewrite Es in X1. contradiction.
    - f_equal. apply J'; try assumption. rewrite Es in X1.
      destruct (holds_det _ _ _ _ _ _ X1 Y1) as [<- _]. apply (leq_trans _ k1); [apply leq_sym; exact X2|exact Y2]. }
  (* the two halves *)
  destruct (F2_app_l _ _ _ _ AL) as [ALa ALb]. rewrite add_kds_len in ALa, ALb.
  replace (length (c_adds c)) with (N.to_nat nA) in ALa, ALb by (unfold nA; lia).
  fold A in ALa. fold Bk in ALb.
  assert (InA : forall d, In d A -> In d kds').
  { intros d X. rewrite <- (firstn_skipn (N.to_nat nA) kds'). apply in_or_app. left. exact X. }
  assert (InB : forall d, In d Bk -> In d kds').
  { intros d X. rewrite <- (firstn_skipn (N.to_nat nA) kds'). apply in_or_app. right. exact X. }
  assert (AA : forall d, In d A -> In (kd_key d, kd_add d) (c_adds c) /\
     exists d0, R d0 d /\ kd_n d0 = None).
  { intros d X. destruct (F2_in_r _ _ _ _ ALa X) as [d0 [Y1 Y2]]. destruct (add_kds_in _ _ _ Y1) as [Z1 Z2].
    split; [|exists d0; split; assumption]. destruct Y2 as [_ [-> [-> _]]]. exact Z1. }
  (* the lists of the file before *)
  assert (OL : forall d lold l, In d kds' -> value p (kd_key d) lold -> oldl p2 d l -> l = lold).
  { intros d lold l Hi Hv Ho. apply (value_ext _ (g1 ++ g2)) in Hv; [|exact W]. rewrite <- P2 in Hv.
    destruct Ho as [[Z ->]|[k' [H1 H2]]].
    - symmetry. destruct (F2_in_r _ _ _ _ AL Hi) as [d0 [_ [_ [_ [_ [[j [X1 X2]] _]]]]]].
      apply (search_free p2 (kd_key d) j lold W2 Hv); [|rewrite <- X1; exact Z].
      intros i Hj. destruct (X2 i Hj) as [Y|[d' [Y1 [Y2 [Y3 Y4]]]]]; [left; exact Y|right].
      unfold isnew in Y2. apply andb_prop in Y2. destruct Y2 as [_ Y2]. apply N.eqb_eq in Y2. rewrite <- Y3. exact Y2.
    - apply (value_det p2 (kd_key d) (kd_key d) l lold W2 (leq_refl _)); [|exact Hv].
      left. exists (kd_slot d), k'. split; [apply leq_sym; exact H2|exact H1]. }
  assert (OX : forall d, In d kds' -> exists l, oldl p2 d l).
  { intros d Hi. destruct (SL d Hi) as [X|[k' [l [X1 X2]]]].
    - exists []. left. split; [exact X|reflexivity].
    - exists l. right. exists k'. split; assumption. }
  destruct (write_adds_ok p2 A p2 (wf_shape _ W2)) as [g3' [adds'' [Ew' Fw]]].
  { intros d X. destruct (AA d X) as [Y _]. exact (Ha _ _ Y). }
  { intros d l X Ho. destruct (AA d X) as [Y [d0 [Z1 Z2]]].
    destruct (FN _ _ Z1 (DN d (InA d X))) as [[T1 [T2 T3]]|[k' [l' [T1 [T2 [T3 T4]]]]]].
    - assert (l = []) as ->.
      { destruct Ho as [[_ Ho]|[k1 [[_ [Ho _]] _]]]; [exact Ho|contradiction]. }
      rewrite T2, T3, Z2. split; [|reflexivity]. split; [apply ch_nil|]. split; [lia|]. split; [lia|]. cbn [length]. lia.
    - assert (l = l') as ->.
      { destruct Ho as [[Ho _]|[k1 [Ho _]]].
        - destruct T1 as [_ [T1 _]]. contradiction.
        - apply (holds_det _ _ _ _ _ _ Ho T1). }
      rewrite Z2 in T4. split; [exact T3|exact T4]. }
  rewrite Ew in Ew'. injection Ew' as Eg3 <-.
  assert (g3' = g3) as ->.
  { rewrite !file_ext in Eg3. apply app_inv_head in Eg3. symmetry. exact Eg3. }
  specialize (Fw B3).
  assert (F12 : Forall2 (fun kv dv => vpos_ok (data p2) (edit_vp (snd dv)) (snd kv)) kvs (st ++ dr)).
  { apply Forall2_app.
    - refine (F2_impl _ _ _ _ _ F1). intros kv dv X. unfold p2. cbn [ext data]. apply vpos_app. exact X.
    - exact F2. }
  destruct (edits_ok (data p2) R kvs nA (st ++ dr) Bk F12 ALb) as [Ed1 Ed2]. fold edits in Ed1, Ed2.
  destruct (write_keys_ok (adds' ++ edits) (ext p2 g3) (wf_shape _ W2)) as [g4' [es' [Ek Fk]]].
  { intros d X. apply in_app_or in X. destruct X as [X|X].
    - destruct (F2_in_r _ _ _ _ Fw X) as [d1 [Y1 [Y2 [Y3 [Y4 Y5]]]]].
      destruct (OX d1 (InA _ Y1)) as [l Ho]. destruct (Y5 l Ho) as [[Z1 [Z2 [Z3 Z4]]] Z5].
      exists (N.of_nat (length (kd_add d1 ++ l))). split; [exact Z5|]. split; [|exact Z3].
      pose proof (file_len _ (shape_ext p2 g3 (wf_shape _ W2))) as FL. cbn [ext data] in FL. unfold flen in *. cbn [ext data] in *. lia.
    - destruct (Ed2 d X) as [kv [d0 [b [Y1 [Y2 [Y3 [Y4 [Y5 [Y6 [Y7 [Y8 Y9]]]]]]]]]]].
      exists (N.of_nat (length (snd kv))). destruct Y9 as [Z1 [Z2 [Z3 Z4]]]. split; [|split; [|exact Z3]].
      + rewrite Y8. destruct (FN _ _ Y2 (DN b (InB b Y3))) as [[_ [_ T]]|[k' [l' [_ [_ [_ T]]]]]]; rewrite T, Y5; reflexivity.
      + pose proof (file_len _ (wf_shape _ W2)) as FL. unfold flen in *. lia. }
  rewrite E in Ek. injection Ek as Eg4 <-.
  assert (g4' = g4) as ->.
  { rewrite !(file_ext (ext p2 g3)) in Eg4. apply app_inv_head in Eg4. symmetry. exact Eg4. }
  specialize (Fk B).
  (* keys, slots and serials are kept *)
  assert (KS : map (fun d => (kd_key d, kd_slot d)) es = map (fun d => (kd_key d, kd_slot d)) kds').
  { transitivity (map (fun d => (kd_key d, kd_slot d)) (adds' ++ edits)).
    - apply F2_map. refine (F2_impl _ _ _ _ _ Fk). intros x y [X1 [X2 _]]. rewrite X1, X2. reflexivity.
    - rewrite <- (firstn_skipn (N.to_nat nA) kds'), !map_app. f_equal.
      + apply F2_map. refine (F2_impl _ _ _ _ _ Fw). intros x y [X1 [X2 _]]. rewrite X1, X2. reflexivity.
      + apply F2_map. refine (F2_impl _ _ _ _ _ Ed1). intros x y [X1 [X2 _]]. rewrite X1, X2. reflexivity. }
  assert (Kes : map kd_key es = map kd_key kds').
  { pose proof (f_equal (map fst) KS) as X. rewrite !map_map in X. exact X. }
  assert (Ses : map kd_slot es = map kd_slot kds').
  { pose proof (f_equal (map snd) KS) as X. rewrite !map_map in X. exact X. }
  assert (to' : forall d, In d es -> exists d', In d' kds' /\ kd_key d' = kd_key d /\ kd_slot d' = kd_slot d).
  { intros d X. apply (in_map (fun d => (kd_key d, kd_slot d))) in X. rewrite KS in X. apply in_map_iff in X.
    destruct X as [d' [X1 X2]]. injection X1 as X3 X4. exists d'. auto. }
  assert (fr' : forall d, In d kds' -> exists d', In d' es /\ kd_key d' = kd_key d /\ kd_slot d' = kd_slot d).
  { intros d X. apply (in_map (fun d => (kd_key d, kd_slot d))) in X. rewrite <- KS in X. apply in_map_iff in X.
    destruct X as [d' [X1 X2]]. injection X1 as X3 X4. exists d'. auto. }
  assert (Oa : ordpairs (fun a b => leq a b = false) (map fst (c_adds c)) /\
               ordpairs (fun a b => leq a b = false) (map fst (c_stores c)) /\
               ordpairs (fun a b => leq a b = false) (map fst (c_drops c)) /\
               (forall x y, In x (map fst (c_adds c)) -> In y (map fst (c_stores c)) -> leq y x = false) /\
               (forall x y, In x (map fst (c_adds c)) -> In y (map fst (c_drops c)) -> leq y x = false) /\
               (forall x y, In x (map fst (c_stores c)) -> In y (map fst (c_drops c)) -> leq y x = false)).
  { unfold distinct, touched in Di. rewrite !map_app in Di. apply op_app in Di. destruct Di as [D1 [D2 D3]].
    apply op_app in D2. destruct D2 as [D2 [D4 D5]].
    assert (SY : forall x y, leq x y = false -> leq y x = false).
    { intros x y X. destruct (leq y x) eqn:Y; [|reflexivity]. apply leq_sym in Y. congruence. }
    repeat split; try assumption; intros x y X Y; apply SY.
    - apply D3; [exact X|apply in_or_app; left; exact Y].
    - apply D3; [exact X|apply in_or_app; right; exact Y].
    - apply D5; assumption. }
  destruct Oa as [O1 [O2 [O3 [O4 [O5 O6]]]]].
  destruct (finish p2 (ext (ext p2 g3) g4) es (V p c)) as [p' [Q1 [Qw [Q2 [Q3 [Q4 Q5]]]]]].
  - exact W2.
  - exact (wf_shape _ W2).
  - reflexivity.
  - exists (g3 ++ g4). cbn [ext data]. rewrite app_assoc. reflexivity.
  - exact B.
  - rewrite Ses. exact NS.
  - intros d Hi. destruct (F2_in_r _ _ _ _ Fk Hi) as [d3 [X1 [X2 [X3 [X4 [X5 [X6 [nv [X7 X8]]]]]]]]].
    split; [exact X5|]. split; [exact X6|]. apply in_app_or in X1. destruct X1 as [X1|X1].
    + destruct (F2_in_r _ _ _ _ Fw X1) as [d1 [Y1 [Y2 [Y3 [Y4 Y5]]]]].
      destruct (OX d1 (InA _ Y1)) as [l Ho]. destruct (Y5 l Ho) as [Z1 Z2].
      exists (kd_add d1 ++ l), (kd_pos d3). split; [|split].
      * intros lold Hv. rewrite X2, Y2 in *. rewrite (OL d1 lold l (InA _ Y1) Hv Ho).
        unfold spec. rewrite (assoc_in _ (kd_add d1) _ O1); [reflexivity|]. apply (AA d1 Y1).
      * rewrite X7 in Z2. injection Z2 as ->. rewrite X2. exact X8.
      * cbn [ext data]. apply vpos_app. exact Z1.
    + destruct (Ed2 d3 X1) as [kv [d0 [b [Y1 [Y2 [Y3 [Y4 [Y5 [Y6 [Y7 [Y8 Y9]]]]]]]]]]].
      assert (Kb : kd_key d = fst kv).
      { rewrite X2, Y6, <- Y4. apply Y2. }
      exists (snd kv), (kd_pos d3). split; [|split].
      * intros lold Hv. rewrite Kb in *. unfold kvs in Y1. apply in_app_or in Y1. destruct Y1 as [Y1|Y1].
        -- unfold spec. rewrite (assoc_none (fst kv) (c_adds c)).
           ++ rewrite (assoc_in (fst kv) (snd kv) _ O2); [reflexivity|]. destruct kv; exact Y1.
           ++ intros x X. apply O4; [exact X|]. apply in_map. exact Y1.
        -- destruct (F2_in_r _ _ _ _ Ed Y1) as [kv0 [Z1 [Z2 Z3]]]. rewrite Z2 in *.
           unfold spec. rewrite (assoc_none _ (c_adds c)).
           ++ rewrite (assoc_none _ (c_stores c)).
              ** rewrite (assoc_in (fst kv0) (snd kv0) _ O3); [|destruct kv0; exact Z1].
                 apply Z3. apply value_ext; [exact W|exact Hv].
              ** intros x X. apply O6; [exact X|]. apply in_map. exact Z1.
           ++ intros x X. apply O5; [exact X|]. apply in_map. exact Z1.
      * assert (Hn : kd_n d3 = Some (N.of_nat (length (snd kv)))).
        { rewrite Y8. destruct (FN _ _ Y2 (DN b (InB b Y3))) as [[_ [_ T]]|[k' [l' [_ [_ [_ T]]]]]]; rewrite T, Y5; reflexivity. }
        rewrite X7 in Hn. injection Hn as ->. rewrite X2. exact X8.
      * cbn [ext data]. apply vpos_app. apply vpos_app. exact Y9.
  - intros d Hi. destruct (to' d Hi) as [d' [X1 [X2 X3]]]. rewrite <- X2, <- X3. apply SL. exact X1.
  - intros d Hi. destruct (to' d Hi) as [d' [X1 [X2 X3]]]. rewrite <- X2, <- X3.
    destruct (F2_in_r _ _ _ _ AL X1) as [d0 [_ [_ [_ [_ [[j [Y1 Y2]] _]]]]]]. exists j. split; [exact Y1|].
    intros i Hj. destruct (Y2 i Hj) as [Y|[d1 [Z1 [Z2 [Z3 Z4]]]]]; [left; exact Y|right].
    apply (Permutation_in _ (Permutation_sym Pm)) in Z1. destruct (fr' d1 Z1) as [d2 [T1 [T2 T3]]].
    exists d2. split; [exact T1|]. split; [congruence|]. rewrite T2.
    destruct (leq (kd_key d') (kd_key d1)) eqn:Lq; [|reflexivity]. exfalso. apply Z4.
    rewrite (J' d' d1 X1 Z1 Lq). reflexivity.
  - exists ((g1 ++ g2) ++ g3 ++ g4). split; [rewrite P2, !ext_ext, <- !app_assoc; reflexivity|].
    exists p'. split; [exact Q1|]. split.
    { destruct Qw as [w1 [w2 [w3 [w4 w5]]]]. rewrite P2, !ext_ext in w1. rewrite <- !app_assoc in w1. rewrite <- !app_assoc.
      repeat (split; [assumption|]). intros s Hs. rewrite (w5 s Hs), P2. reflexivity. }
    split; [exact Q2|]. split; [rewrite Kes, K', K0; reflexivity|]. split; [exact Q3|].
    split; [|split].
    + intros s k l H Hn. apply Q4; [|exact Hn]. rewrite P2. apply holds_ext. exact H.
    + intros s k l H. destruct (Q5 s k l H) as [X|[X1 X2]]; [left; exact X|right]. split; [|exact X2].
      rewrite P2 in X1. exact (holds_ext_inv _ _ _ _ _ (wf_slot _ W) X1).
    + intros d Hi. destruct (to' d Hi) as [d' [X1 [X2 X3]]]. rewrite <- X2, <- X3.
      destruct (SL d' X1) as [X|[k' [l [Y1 Y2]]]].
      * left. rewrite P2 in X. exact X.
      * right. exists k', l. split; [|exact Y2]. rewrite P2 in Y1. exact (holds_ext_inv _ _ _ _ _ (wf_slot _ W) Y1).
Qed.

Definition entry (p : parts) (k : L) : Prop := exists s k' l, leq k k' = true /\ holds p s k' l.

Lemma save_ok p c cached adds left f' :
  wf p -> distinct c -> (forall k v, In (k, v) (c_adds c) -> v <> []) ->
  (forall k v, In (k, v) (c_drops c) -> cached k = None /\ adds k = None /\ redundant k = false) ->
  save cached adds left (file p) c = Ok f' -> flen f' < 2 ^ 32 ->
  exists p', f' = file p' /\ wf p' /\ (forall k l, value p k l -> value p' k (spec c k l)) /\
  forall k, entry p' k <-> entry p k \/ exists x, In x (touched c) /\ leq k x = true.
Proof.
  intros W Di Ha Hd E B. unfold FileIndexModel.save in E.
  assert (X : (c_adds c = [] /\ c_drops c = [] /\ c_stores c = [] /\ f' = file p) \/
              exists f4 es, save_data cached adds left (file p) c = Ok (f4, es) /\ f' = write_offsets L f4 es).
  { destruct (c_adds c), (c_drops c), (c_stores c);
      try (destruct (save_data cached adds left (file p) c) as [[f4 es]| | |] eqn:X; try discriminate E;
           injection E as <-; right; exists f4, es; split; reflexivity).
    left. injection E as <-. repeat split. }
  clear E. destruct X as [[E1 [E2 [E3 ->]]]|[f4 [es [E ->]]]].
  { exists p. split; [reflexivity|]. split; [exact W|]. split.
    - intros k l Hv. unfold spec. rewrite E1, E2, E3. exact Hv.
    - intros k. unfold touched. rewrite E1, E2, E3. split; [intros X; left; exact X|]. intros [X|[x [[] _]]]. exact X. }
  assert (B4 : flen f4 < 2 ^ 32).
  { assert (Z : forall es (f : bytes), (length f <= length (fold_left (write_offset L) es f))%nat).
    { intros es0. induction es0 as [|d es0 IH]; intros f; [cbn; lia|]. cbn [fold_left]. etransitivity; [|apply IH].
      unfold write_offset, patch. rewrite !app_length, firstn_length, skipn_length, put_4bytes_len. lia. }
    specialize (Z (qsort kd_pos es) f4). unfold write_offsets, flen in *. lia. }
  destruct (save_data_ok p c cached adds left f4 es W Di Ha Hd E B4) as [g [-> [p' [Q1 [_ [Q2 [Qk [Q3 [Q4 [Q5 Q6]]]]]]]]]].
  exists p'. split; [exact Q1|]. split; [exact Q2|].
  assert (En : forall k, entry p' k <-> entry p k \/ exists x, In x (touched c) /\ leq k x = true).
  { intros k. split.
    - intros [s [k' [l [E1 H]]]]. destruct (Q5 _ _ _ H) as [[d [Z1 [_ ->]]]|[Z _]].
      + right. exists (kd_key d). split; [rewrite <- Qk; apply in_map; exact Z1|exact E1].
      + left. exists s, k', l. split; assumption.
    - intros X. assert (Y : (exists x, In x (touched c) /\ leq k x = true) \/
        ((forall x, In x (touched c) -> leq k x = false) /\ entry p k)).
      { destruct (not_touched_dec c k) as [T|T]; [|left; exact T]. right. split; [exact T|].
        destruct X as [X|[x [X1 X2]]]; [exact X|]. rewrite (T x X1) in X2. discriminate X2. }
      destruct Y as [[x [T1 T2]]|[T [s [k' [l [E1 H]]]]]].
      + rewrite <- Qk in T1. apply in_map_iff in T1. destruct T1 as [d [<- Hi]].
        destruct (Q3 d Hi) as [l' [_ X2]]. exists (kd_slot d), (kd_key d), l'. split; assumption.
      + exists s, k', l. split; [exact E1|]. apply Q4; [exact H|]. intros Hi. apply in_map_iff in Hi.
        destruct Hi as [d [<- Hi]]. destruct (Q6 d Hi) as [Z|[k1 [l1 [Z1 Z2]]]].
        * destruct H as [_ [H _]]. contradiction.
        * destruct (holds_det _ _ _ _ _ _ H Z1) as [<- _]. pose proof (leq_trans _ _ _ E1 Z2) as Z.
          rewrite (T (kd_key d)) in Z; [discriminate Z|]. rewrite <- Qk. apply in_map. exact Hi. }
  split; [|exact En]. intros k l Hv.
  destruct (not_touched_dec c k) as [T|[x [T1 T2]]].
  - rewrite (untouched c k l T).
    assert (Tk : forall d, In d es -> leq k (kd_key d) = false).
    { intros d Hi. apply T. rewrite <- Qk. apply in_map. exact Hi. }
    destruct Hv as [[s [k' [E1 H]]]|[-> H]].
    + left. exists s, k'. split; [exact E1|]. apply Q4; [exact H|]. intros Hi. apply in_map_iff in Hi.
      destruct Hi as [d [<- Hi]]. destruct (Q6 d Hi) as [Z|[k1 [l1 [Z1 Z2]]]].
      * destruct H as [_ [H _]]. contradiction.
      * destruct (holds_det _ _ _ _ _ _ H Z1) as [<- _]. pose proof (leq_trans _ _ _ E1 Z2) as Z. rewrite (Tk d Hi) in Z. discriminate Z.
    + right. split; [reflexivity|]. intros s k' l' H'. destruct (Q5 _ _ _ H') as [[d [Z1 [_ ->]]]|[Z _]].
      * apply Tk. exact Z1.
      * exact (H _ _ _ Z).
  - rewrite <- Qk in T1. apply in_map_iff in T1. destruct T1 as [d [<- Hi]].
    destruct (Q3 d Hi) as [l' [X1 X2]]. left. exists (kd_slot d), (kd_key d). split; [exact T2|].
    rewrite (spec_leq c k (kd_key d) l T2), <- (X1 l); [exact X2|]. exact (value_leq _ _ _ _ T2 Hv).
Qed.

(** ** A new file *)

Definition p0 (magic : N) : parts :=
  {| hd := put_4bytes magic ++ put_4bytes n; offs := repeat 0 (N.to_nat n);
     data := put_4bytes 0xFFFFFFFE ++ put_4bytes 40 ++ concat (repeat (put_4bytes 0) 8) |}.
Lemma make_file_p0 magic : make_file n magic = file (p0 magic).
Proof.
  unfold make_file, file, p0. cbn [hd offs data]. rewrite <- !app_assoc. do 2 f_equal.
  f_equal. unfold words. f_equal. generalize (N.to_nat n) as m. induction m as [|m IH]; [reflexivity|].
  cbn [repeat map]. rewrite IH. reflexivity.
Qed.
Lemma p0_slot magic s : slot (p0 magic) s = 0.
Proof.
  unfold slot, p0. cbn [offs]. generalize (N.to_nat s) as i. generalize (N.to_nat n) as m.
  induction m as [|m IH]; intros [|i]; cbn [repeat nth]; try reflexivity. apply IH.
Qed.
Lemma p0_wf magic : flen (make_file n magic) < 2 ^ 32 -> wf (p0 magic).
Proof.
  intros B. constructor.
  - split; [cbn [p0 hd]; rewrite app_length, !put_4bytes_len; reflexivity|]. split; [cbn [p0 offs]; rewrite repeat_length; lia|].
    cbn [p0 offs]. apply Forall_forall. intros x Hx. apply repeat_spec in Hx. subst x. reflexivity.
  - intros s _. left. apply p0_slot.
  - intros s k l [_ [H _]]. rewrite p0_slot in H. contradiction.
  - rewrite <- make_file_p0. exact B.
Qed.
Lemma p0_value magic k : value (p0 magic) k [].
Proof. right. split; [reflexivity|]. intros s k' l' [_ [H _]]. rewrite p0_slot in H. contradiction. Qed.

Lemma words_inj a b r r' : length a = length b -> Forall (fun o => o < 2 ^ 32) a -> Forall (fun o => o < 2 ^ 32) b ->
  words a ++ r = words b ++ r' -> a = b /\ r = r'.
Proof.
  revert b. induction a as [|x a IH]; intros [|y b] Hl Fa Fb E; try discriminate Hl; [split; [reflexivity|exact E]|].
  inversion Fa as [|? ? A1 A2]; subst. inversion Fb as [|? ? B1 B2]; subst.
  change (words (x :: a)) with (put_4bytes x ++ words a) in E. change (words (y :: b)) with (put_4bytes y ++ words b) in E.
  rewrite <- !app_assoc in E. destruct (put4_inj _ _ _ _ A1 B1 E) as [-> E'].
  destruct (IH b) as [-> ->]; try assumption; [injection Hl as Hl; exact Hl|]. split; reflexivity.
Qed.
Lemma file_inj p q : shape p -> shape q -> file p = file q -> p = q.
Proof.
  intros [A1 [A2 A3]] [B1 [B2 B3]] E. unfold file in E.
  assert (X : hd p = hd q /\ words (offs p) ++ data p = words (offs q) ++ data q).
  { set (u := words (offs p) ++ data p) in *. set (v := words (offs q) ++ data q) in *.
    revert A1 B1 E. generalize u, v. generalize (hd p) as a, (hd q) as b. clear. intros a b u v Ha Hb E.
    split; [|apply (f_equal (skipn 8)) in E; rewrite !skipn_app, (skipn_all2 a), (skipn_all2 b), Ha, Hb in E by lia; exact E].
    apply (f_equal (firstn 8)) in E. rewrite !firstn_app, (firstn_all2 a), (firstn_all2 b), Ha, Hb in E by lia.
    cbn [Nat.sub firstn] in E. rewrite !app_nil_r in E. exact E. }
  destruct X as [X1 X2]. apply words_inj in X2; [|lia|assumption|assumption]. destruct X2 as [X2 X3].
  destruct p, q. cbn in *. congruence.
Qed.

(** ** Rollback *)

Lemma apply_save f g : (N.to_nat (8 + 4 * n) <= length f)%nat -> N.of_nat (length f) < 2 ^ 64 ->
  (length f <= length g)%nat ->
  skipn (N.to_nat (8 + 4 * n)) (firstn (length f) g) = skipn (N.to_nat (8 + 4 * n)) f ->
  apply_head (save_head n f) g = Some f.
Proof.
  intros Hl Hb Hg E. unfold apply_head, save_head.
  set (h := N.to_nat (8 + 4 * n)) in *.
  assert (Lh : length (firstn h f) = h) by (rewrite firstn_length; lia).
  rewrite app_length, put_8bytes_len, Lh. replace (h + 8 - 8)%nat with h by lia.
  rewrite <- Lh at 1. rewrite skipn_app, skipn_all, Nat.sub_diag. cbn [app skipn].
  rewrite <- (app_nil_r (put_8bytes _)), read_8bytes_put. rewrite N.mod_small by exact Hb.
  unfold FileIndexModel.flen. rewrite Nat2N.id.
  destruct (Nat.ltb_spec (length f) h) as [X|_]; [lia|]. f_equal.
  rewrite <- Lh at 1. rewrite firstn_app, firstn_all, Nat.sub_diag. cbn [firstn]. rewrite app_nil_r.
  unfold patch. change (N.to_nat 0) with O. cbn [firstn app Nat.add]. rewrite Lh.
  unfold truncate. rewrite app_length, Lh, skipn_length.
  replace (length f - (h + (length g - h)))%nat with O by lia. cbn [repeat]. rewrite app_nil_r.
  rewrite firstn_app, Lh. rewrite (firstn_all2 (firstn h f)) by lia.
  rewrite firstn_skipn_comm. replace (h + (length f - h))%nat with (length f) by lia. rewrite E. apply firstn_skipn.
Qed.

(** ** Keys *)

Lemma get_offsets_ok p : shape p -> forall m, (m <= length (offs p))%nat -> forall i, (i + m = length (offs p))%nat ->
  get_offsets (file p) (seq i m) = Some (skipn i (offs p)).
Proof.
  intros Sh m. induction m as [|m IH]; intros Hm i Hi.
  - cbn [seq get_offsets]. rewrite skipn_all2 by lia. reflexivity.
  - cbn [seq get_offsets]. destruct Sh as [A [B C]].
    assert (Hs : N.of_nat i < n) by lia.
    rewrite get_slot by (try exact Hs; repeat split; assumption).
    rewrite IH by lia. unfold slot. rewrite Nat2N.id. rewrite (nth_split_skip (offs p) i 0) by lia. reflexivity.
Qed.

Lemma read_infos_ok p os : shape p -> flen (file p) < 2 ^ 32 ->
  (forall o, In o os -> exists nv vp k, is_entry (data p) o nv vp k) ->
  exists l, read_infos L dec n (file p) os = Some l /\
  Forall2 (fun o x => exists vp, is_entry (data p) o (fst x) vp (snd x)) os l.
Proof.
  intros Sh B. induction os as [|o os IH]; intros H; cbn [read_infos].
  - exists []. split; [reflexivity|constructor].
  - destruct (H o (or_introl eq_refl)) as [nv [vp [k E]]].
    destruct IH as [l [El Fl]]; [intros x Hx; apply H; right; exact Hx|].
    unfold FileIndexModel.w32. rewrite N.mod_small.
    + rewrite (N.add_comm po o), (read_entry_ok p o nv vp k Sh E), El. exists ((nv, k) :: l).
      split; [reflexivity|]. constructor; [|exact Fl]. exists vp. exact E.
    + pose proof (file_len _ Sh) as FL. destruct E as [E1 [_ [_ [r E]]]]. unfold at_ in E.
      apply (f_equal (@length N)) in E. rewrite skipn_length, !app_length, put_4bytes_len in E.
      unfold FileIndexModel.flen, FileIndexModel.po in *. lia.
Qed.

Lemma fetchinfo_ok p : wf p -> exists l, fetchinfo_file L dec n (file p) = Some l /\
  ordpairs (fun a b => leq a b = false) (map snd l) /\
  (forall nv k, In (nv, k) l <-> exists s vs, holds p s k vs /\ nv = N.of_nat (length vs)).
Proof.
  intros W. assert (Sh := wf_shape _ W). assert (Sh' := Sh). destruct Sh' as [S1 [S2 S3]].
  unfold fetchinfo_file.
  rewrite (get_offsets_ok p Sh) by lia. cbn [skipn].
  set (os := compress_offsets (offs p)).
  assert (Pm : Permutation (qsort (fun o => o) os) os) by apply qsort_perm.
  assert (In0 : forall o, In o os <-> o <> 0 /\ exists s, s < n /\ slot p s = o).
  { intros o. unfold os, compress_offsets. rewrite filter_In. split.
    - intros [X Y]. split; [intros ->; discriminate Y|]. destruct (In_nth _ _ 0 X) as [i [Hi Ei]].
      exists (N.of_nat i). split; [lia|]. unfold slot. rewrite Nat2N.id. exact Ei.
    - intros [X [s [Hs Es]]]. split; [rewrite <- Es; apply nth_In; lia|]. apply negb_true_iff, N.eqb_neq. exact X. }
  assert (NDo : NoDup os).
  { unfold os, compress_offsets.
    assert (Z : forall s s', s < n -> s' < n -> slot p s = slot p s' -> slot p s <> 0 -> s = s').
    { intros s s' Hs Hs' Es Nz.
      destruct (wf_slot _ W s Hs) as [X|[k [l H]]]; [contradiction|].
      assert (H' : holds p s' k l).
      { destruct H as [_ [H2 H3]]. rewrite Es in *. split; [exact Hs'|]. split; assumption. }
      apply (holds_uniq p s k l s' k l W H H' (leq_refl k)). }
    assert (G : forall i, (i <= length (offs p))%nat -> NoDup (filter (fun o => negb (o =? 0)) (skipn i (offs p)))).
    { intros i Hi. remember (length (offs p) - i)%nat as m. revert i Hi Heqm. induction m as [|m IH]; intros i Hi E.
      - rewrite skipn_all2 by lia. constructor.
      - rewrite (nth_split_skip (offs p) i 0) by lia. cbn [filter].
        destruct (N.eqb_spec (nth i (offs p) 0) 0) as [X|X]; cbn [negb]; [apply IH; lia|].
        constructor; [|apply IH; lia]. intros Hin. apply filter_In in Hin. destruct Hin as [Hin _].
        destruct (In_nth _ _ 0 Hin) as [j [Hj Ej]]. rewrite skipn_length in Hj.
        assert (Y : nth j (skipn (S i) (offs p)) 0 = nth (S i + j) (offs p) 0).
        { rewrite <- (firstn_skipn (S i) (offs p)) at 2. rewrite app_nth2; rewrite firstn_length; [f_equal; lia|lia]. }
        assert (T : N.of_nat i = N.of_nat (S i + j)).
        { apply Z; try lia; unfold slot; rewrite !Nat2N.id; congruence. }
        lia. }
    apply (G O). lia. }
  destruct (read_infos_ok p (qsort (fun o => o) os) Sh (wf_len _ W)) as [l [El Fl]].
  { intros o Ho. apply (Permutation_in _ Pm) in Ho. apply In0 in Ho. destruct Ho as [X [s [Hs Es]]].
    destruct (wf_slot _ W s Hs) as [Y|[k [vs [_ [_ [vp [H _]]]]]]]; [congruence|].
    rewrite Es in H. exists (N.of_nat (length vs)), vp, k. exact H. }
  exists l. split; [exact El|].
  assert (M : forall o nv k, In o os -> (exists vp, is_entry (data p) o nv vp k) ->
     exists s vs, s < n /\ slot p s = o /\ holds p s k vs /\ nv = N.of_nat (length vs)).
  { intros o nv k Ho [vp He]. apply In0 in Ho. destruct Ho as [X [s [Hs Es]]].
    destruct (wf_slot _ W s Hs) as [Y|[k' [vs H]]]; [congruence|]. exists s, vs.
    assert (H' := H). destruct H' as [_ [_ [vp' [H' _]]]]. rewrite Es in H'.
    destruct (entry_det _ _ _ _ _ _ _ _ He H') as [-> [_ ->]].
    split; [exact Hs|]. split; [exact Es|]. split; [exact H|reflexivity]. }
  split.
  - assert (ND : NoDup (qsort (fun o => o) os)) by (apply (Permutation_NoDup (Permutation_sym Pm)); exact NDo).
    assert (Sub : forall o, In o (qsort (fun o => o) os) -> In o os) by (intros o; apply (Permutation_in _ Pm)).
    clear -Fl ND Sub M W leq_sym leq_trans leq_refl hash_leq codec n_ok redundant hash. induction Fl as [|o x os' l H F IH]; [constructor|].
    inversion ND as [|? ? N1 N2]; subst. cbn [map]. constructor; [|apply IH; [exact N2|intros; apply Sub; right; assumption]].
    intros y Hy. apply in_map_iff in Hy. destruct Hy as [y' [<- Hy]].
    destruct (F2_in_r _ _ _ _ F Hy) as [o' [O1 O2]].
    destruct (leq (snd x) (snd y')) eqn:E; [|reflexivity]. exfalso. apply N1.
    destruct (M o _ _ (Sub o (or_introl eq_refl)) H) as [s [vs [A1 [A2 [A3 _]]]]].
    destruct (M o' _ _ (Sub o' (or_intror O1)) O2) as [s' [vs' [A1' [A2' [A3' _]]]]].
    destruct (holds_uniq p s _ _ s' _ _ W A3 A3' E) as [<- _]. rewrite <- A2, A2'. exact O1.
  - intros nv k. split.
    + intros Hi. destruct (F2_in_r _ _ _ _ Fl Hi) as [o [O1 O2]]. apply (Permutation_in _ Pm) in O1.
      destruct (M o _ _ O1 O2) as [s [vs [_ [_ [A B]]]]]. exists s, vs. split; assumption.
    + intros [s [vs [H ->]]].
      assert (Ho : In (slot p s) (qsort (fun o => o) os)).
      { apply (Permutation_in _ (Permutation_sym Pm)). apply In0. split; [apply H|]. exists s. split; [apply H|reflexivity]. }
      assert (X : exists x, In x l /\ exists vp, is_entry (data p) (slot p s) (fst x) vp (snd x)).
      { clear -Fl Ho. induction Fl as [|o x os' l H F IH]; [destruct Ho|]. destruct Ho as [->|Ho].
        - exists x. split; [left; reflexivity|exact H].
        - destruct (IH Ho) as [y [Y1 Y2]]. exists y. split; [right; exact Y1|exact Y2]. }
      destruct X as [[nv k'] [X1 [vp X2]]]. cbn [fst snd] in X2. destruct H as [_ [_ [vp' [H _]]]].
      destruct (entry_det _ _ _ _ _ _ _ _ X2 H) as [-> [_ ->]]. exact X1.
Qed.

(** ** Saves come to an end *)

(** With stores and additions only, a save writes the file or reports an overflow. *)
Lemma save_total p c cached adds left : wf p -> c_drops c = [] ->
  flen (fst (commit_vals L enc (file p) (N.of_nat (length (c_adds c))) (c_stores c))) < 2 ^ 32 ->
  (exists f', save cached adds left (file p) c = Ok f') \/ save cached adds left (file p) c = Overflow.
Proof.
  intros W Ed B. unfold FileIndexModel.save.
  assert (X : (exists x, save_data cached adds left (file p) c = Ok x) \/
              save_data cached adds left (file p) c = Overflow).
  { unfold FileIndexModel.save_data. rewrite Ed. cbn [drop_vals].
    destruct (commit_vals_ok (c_stores c) p (N.of_nat (length (c_adds c))) (wf_shape _ W)) as [g1 [st [E1 [M1 _]]]].
    rewrite E1 in *. cbn [fst] in B. cbn [commit_vals]. rewrite app_nil_r, M1.
    rewrite file_ext in B. pose proof (wf_ext p g1 W B) as W1.
    destruct (fetch_keydata_total (ext p g1) W1 (add_kds L 0 (c_adds c) ++ edit_kds (N.of_nat (length (c_adds c))) (c_stores c)))
      as [[out E]|E].
    - rewrite map_app, add_kds_serial, edit_kds_serial. rewrite <- (N.add_0_l (N.of_nat _)), <- upto_app. apply upto_nodup.
    - rewrite E. destruct (write_adds L enc n (file (ext p g1)) _) as [f3 a]. left. eexists. reflexivity.
    - rewrite E. right. reflexivity. }
  destruct (c_adds c), (c_drops c), (c_stores c); try (left; eexists; reflexivity);
    (destruct X as [[[f4 es] X]|X]; rewrite X; [left; eexists; reflexivity|right; reflexivity]).
Qed.

Lemma fetch_over p k : wf p -> redundant k = false -> (forall i, i <= 257 -> other p k (probe k i)) ->
  fetch L leq hash dec n redundant (file p) k = Overflow.
Proof.
  intros W R H. assert (Sh := wf_shape _ W). unfold fetch. rewrite R, <- probe_0.
  assert (G : forall left j, j + N.of_nat left <= 257 -> fetch_loop (file p) k left (probe k j) = Overflow).
  { induction left as [|left IH]; intros j Hj.
    all: destruct (H j) as [k1 [l1 [H1 D1]]]; [lia|];
      destruct (holds_entry _ _ _ _ Sh H1) as [vp [E1 [E2 [E3 [E4 [E5 E6]]]]]];
      assert (Hw : FileIndexModel.w32 (slot p (probe k j) + po) = slot p (probe k j) + po)
        by (unfold FileIndexModel.w32; apply N.mod_small; pose proof (wf_len _ W); lia);
      cbn [FileIndexModel.fetch_loop]; rewrite E1; destruct (slot p (probe k j)) as [|o] eqn:Eo;
      [exfalso; apply (proj1 (proj2 H1)); exact Eo|]; rewrite Hw, E3, D1.
    - reflexivity.
    - rewrite probe_next. apply IH. lia. }
  apply G. lia.
Qed.

(** A full circle of other keys: fetchn goes round forever. *)
Lemma fetchn_stuck p k : wf p -> (forall i, other p k (probe k i)) -> forall a left j,
  fetchn_loop L leq hash dec n (file p) k a left (probe k j) = Stuck.
Proof.
  intros W H a left. assert (Sh := wf_shape _ W). induction left as [|left IH]; intros j; [reflexivity|].
  destruct (H j) as [k1 [l1 [H1 D1]]].
  destruct (holds_entry _ _ _ _ Sh H1) as [vp [E1 [E2 [E3 [E4 [E5 E6]]]]]].
  cbn [fetchn_loop]. rewrite E1. destruct (slot p (probe k j)) as [|o] eqn:Eo;
    [exfalso; apply (proj1 (proj2 H1)); exact Eo|]. rewrite E3.
  destruct (leq k1 k) eqn:El; [apply leq_sym in El; congruence|]. rewrite probe_next. apply IH.
Qed.

(** ** Keys with the same hash code *)

Lemma qsort_const {A} (key : A -> N) x l : (forall y, In y l -> key y = x) -> qsort key l = l.
Proof.
  induction l as [|y l IH]; intros H; [reflexivity|]. cbn [qsort fold_right]. change (fold_right (insert key) [] l) with (qsort key l).
  rewrite IH by (intros z Hz; apply H; right; exact Hz). destruct l as [|z l]; [reflexivity|]. cbn [insert].
  rewrite (H y), (H z) by (cbn; auto). rewrite N.leb_refl. reflexivity.
Qed.
Lemma filter_all {A} (f : A -> bool) l : (forall x, In x l -> f x = true) -> filter f l = l.
Proof.
  induction l as [|x l IH]; intros H; [reflexivity|]. cbn [filter]. rewrite (H x) by (left; reflexivity).
  rewrite IH; [reflexivity|]. intros y Hy. apply H. right. exact Hy.
Qed.
Lemma filter_none {A} (f : A -> bool) l : (forall x, In x l -> f x = false) -> filter f l = [].
Proof.
  induction l as [|x l IH]; intros H; [reflexivity|]. cbn [filter]. rewrite (H x) by (left; reflexivity).
  apply IH. intros y Hy. apply H. right. exact Hy.
Qed.

Lemma probe_hash k k' j : hash k = hash k' -> probe k j = probe k' j.
Proof. intros E. unfold probe, FileIndexModel.first_slot, FileIndexModel.width. rewrite E. reflexivity. Qed.

Definition waiting (k0 : L) (j : N) (d : keydata) : Prop :=
  hash (kd_key d) = hash k0 /\ kd_slot d = probe k0 j /\ kd_seek d = true /\ kd_done d = false /\
  kd_pos d = 8 + 4 * kd_slot d.
Lemma waiting_on k0 j d : waiting k0 j d -> waiting k0 (j + 1) (probe_on d).
Proof.
  intros [A [B [C [D E]]]]. unfold waiting, FileIndexModel.probe_on. cbn.
  assert (X : next_slot n (kd_slot d) (width (kd_key d)) = probe k0 (j + 1)).
  { rewrite B, <- probe_next. unfold FileIndexModel.width. rewrite A. reflexivity. }
  rewrite X. auto.
Qed.
Lemma step_waiting p k0 j d res : shape p -> slot p (probe k0 j) = 0 -> waiting k0 j d ->
  step_kd (file p) res d =
  match reserve_slotno res (probe k0 j) with
  | Some res' => Some (res', KD (kd_key d) (kd_add d) (kd_serial d) (kd_slot d) false true (default (kd_n d) 0) 0)
  | None => Some (res, probe_on d)
  end.
Proof.
  intros Sh Z [A [B [C [D E]]]]. unfold FileIndexModel.step_kd. rewrite C, E, B.
  destruct (read_slot p (probe k0 j) Sh (probe_lt k0 j)) as [r Er]. rewrite Er, read_4bytes_put, Z.
  cbn [N.modulo]. change (0 mod 2 ^ 32 =? 0) with true. cbn [negb]. reflexivity.
Qed.
Lemma pass_reserved p k0 j ds res : shape p -> slot p (probe k0 j) = 0 -> sorted res -> In (probe k0 j) res ->
  (forall d, In d ds -> waiting k0 j d) -> pass_kd (file p) res ds = Some (res, map probe_on ds).
Proof.
  intros Sh Z So Hi. induction ds as [|d ds IH]; intros H; [reflexivity|]. cbn [FileIndexModel.pass_kd map].
  rewrite (step_waiting p k0 j) by (try assumption; apply H; left; reflexivity).
  pose proof (reserve_ok res (probe k0 j) So) as Rv. destruct (reserve_slotno res (probe k0 j)) as [res'|].
  - destruct Rv as [_ [_ Rv]]. contradiction.
  - rewrite IH; [reflexivity|]. intros x Hx. apply H. right. exact Hx.
Qed.

Lemma passes_same p k0 : shape p -> (forall s, slot p s = 0) -> forall m ds pre left chain res fin j,
  length ds = m ->
  (forall d, In d ds -> waiting k0 j d) -> (forall d, In d pre -> kd_done d = true) ->
  (pre = [] -> chain = 0) -> sorted res -> (forall x, In x res -> exists i, i < j /\ x = probe k0 i) ->
  (forall i i', i < i' -> i' < j + N.of_nat m -> probe k0 i <> probe k0 i') ->
  (m + 2 <= left)%nat -> exists out, passes left (file p) chain res (pre ++ ds) fin = Ok out.
Proof.
  intros Sh Z m. induction m as [|m IH]; intros ds pre left chain res fin j El Hw Hp Hc So Hr Hd Hl;
    (destruct left as [|left]; [lia|]); cbn [FileIndexModel.passes];
    rewrite !filter_app;
    rewrite (filter_none (fun d => negb (kd_done d)) pre) by (intros x Hx; rewrite (Hp x Hx); reflexivity);
    rewrite (filter_all (fun d => negb (kd_done d)) ds)
      by (intros x Hx; destruct (Hw x Hx) as [_ [_ [_ [X _]]]]; rewrite X; reflexivity);
    cbn [app].
  - destruct ds; [|discriminate El]. rewrite app_nil_r. cbn [app qsort fold_right FileIndexModel.pass_kd length].
    destruct (Nat.eqb_spec (length pre) 0) as [X|X]; [eexists; reflexivity|].
    destruct left as [|left]; [lia|]. cbn [FileIndexModel.passes length filter qsort fold_right].
    eexists. reflexivity.
  - destruct ds as [|d ds]; [discriminate El|]. injection El as El.
    rewrite (qsort_const _ (8 + 4 * probe k0 j))
      by (intros y Hy; destruct (Hw y Hy) as [_ [X1 [_ [_ X2]]]]; rewrite X2, X1; reflexivity).
    cbn [FileIndexModel.pass_kd].
    rewrite (step_waiting p k0 j) by (try assumption; try apply Z; apply Hw; left; reflexivity).
    pose proof (reserve_ok res (probe k0 j) So) as Rv. destruct (reserve_slotno res (probe k0 j)) as [res'|].
    2: { exfalso. destruct (Hr _ Rv) as [i [Hi Ei]]. apply (Hd i j Hi); [lia|congruence]. }
    destruct Rv as [S1 [S2 S3]].
    rewrite (pass_reserved p k0 j ds res'); try assumption; try apply Z.
    2: { apply (Permutation_in _ (Permutation_sym S2)). left. reflexivity. }
    2: { intros x Hx. apply Hw. right. exact Hx. }
    set (d' := KD (kd_key d) (kd_add d) (kd_serial d) (kd_slot d) false true (default (kd_n d) 0) 0).
    destruct (Nat.eqb_spec (length (pre ++ d :: ds)) 0) as [X|_]; [rewrite app_length in X; cbn [length] in X; lia|].
    assert (G : forall ch, exists out, passes left (file p) ch res' ([d'] ++ map probe_on ds)
                  ((filter kd_done pre ++ filter kd_done (d :: ds)) ++ fin) = Ok out).
    { intros ch. apply (IH (map probe_on ds) [d'] left ch res' _ (j + 1)).
      - rewrite map_length. exact El.
      - intros x Hx. apply in_map_iff in Hx. destruct Hx as [y [<- Hy]]. apply waiting_on. apply Hw. right. exact Hy.
      - intros x [<-|[]]. reflexivity.
      - discriminate.
      - exact S1.
      - intros x Hx. apply (Permutation_in _ S2) in Hx. destruct Hx as [<-|Hx]; [exists j; split; [lia|reflexivity]|].
        destruct (Hr x Hx) as [i [Hi Ei]]. exists i. split; [lia|exact Ei].
      - intros i i' X Y. apply Hd; [exact X|lia].
      - lia. }
    cbn [app] in G. destruct (Nat.eqb_spec (length (pre ++ d :: ds)) (length (d :: ds))) as [X|X]; [|apply G].
    destruct pre as [|y pre]; [|rewrite app_length in X; cbn [length] in X; lia].
    rewrite (Hc eq_refl). apply G.
Qed.

(** Keys with one hash code, saved at once into an empty file. *)
Lemma same_hash_save p c k0 cached adds left : wf p -> (forall s, slot p s = 0) ->
  c_stores c = [] -> c_drops c = [] -> c_adds c <> [] ->
  (forall k v, In (k, v) (c_adds c) -> hash k = hash k0) ->
  (forall i i', i < i' -> i' < N.of_nat (length (c_adds c)) -> probe k0 i <> probe k0 i') ->
  exists f4 es, save_data cached adds left (file p) c = Ok (f4, es).
Proof.
  intros W Z Es Ed En Hh Hd. unfold FileIndexModel.save_data. rewrite Es, Ed. cbn [commit_vals drop_vals app map].
  rewrite app_nil_r. unfold fetch_keydata.
  destruct (passes_same p k0 (wf_shape _ W) Z (length (c_adds c)) (map (start_kd L hash n) (add_kds L 0 (c_adds c))) []
              (300 * S (length (add_kds L 0 (c_adds c)))) 0 [] [] 0) as [out E].
  - rewrite map_length. apply add_kds_len.
  - intros d Hi. apply in_map_iff in Hi. destruct Hi as [d1 [<- Hi]]. destruct (add_kds_in _ _ _ Hi) as [X _].
    unfold waiting. cbn. rewrite <- (probe_0 (kd_key d1)), (Hh _ _ X).
    rewrite (probe_hash (kd_key d1) k0 0) by exact (Hh _ _ X). auto.
  - intros ? [].
  - reflexivity.
  - intros i j H. cbn in H. lia.
  - intros ? [].
  - exact Hd.
  - rewrite add_kds_len. lia.
  - cbn [app] in E. rewrite E.
    destruct (write_adds L enc n (file p) _) as [f3 a].
    destruct (write_keys L enc n f3 _) as [f4 es]. exists f4, es. reflexivity.
Qed.

Lemma write_adds_len M ds : forall f, (forall d, In d ds -> exists v, kd_add d = [v] /\ (length (enc v) <= M)%nat) ->
  (length (fst (write_adds L enc n f ds)) <= length f + length ds * (M + 4))%nat /\
  map kd_key (snd (write_adds L enc n f ds)) = map kd_key ds.
Proof.
  induction ds as [|d ds IH]; intros f H; cbn [write_adds]; [cbn; split; [lia|reflexivity]|].
  destruct (H d (or_introl eq_refl)) as [v [Ev Lv]]. rewrite Ev. cbn [FileIndexModel.write_values].
  destruct (IH (f ++ enc v ++ put_4bytes (kd_pos d))) as [A B]; [intros x Hx; apply H; right; exact Hx|].
  destruct (write_adds L enc n (f ++ enc v ++ put_4bytes (kd_pos d)) ds) as [f' l]. cbn [fst snd map length] in *.
  rewrite !app_length, put_4bytes_len in A. split; [lia|]. f_equal. exact B.
Qed.
Lemma write_keys_len M ds : forall f, (forall k, In k (map kd_key ds) -> (length (enc k) <= M)%nat) ->
  (length (fst (write_keys L enc n f ds)) <= length f + length ds * (M + 8))%nat.
Proof.
  induction ds as [|d ds IH]; intros f H; cbn [write_keys]; [cbn; lia|].
  pose proof (H _ (or_introl eq_refl)) as Hd.
  set (nv := match kd_n d with Some x => x | None => 2 ^ 32 - 1 end).
  pose proof (IH (f ++ put_4bytes nv ++ put_4bytes (kd_pos d) ++ enc (kd_key d)) (fun k Hk => H k (or_intror Hk))) as A.
  destruct (write_keys L enc n (f ++ put_4bytes nv ++ put_4bytes (kd_pos d) ++ enc (kd_key d)) ds) as [f' l]. cbn [fst length] in *.
  rewrite !app_length, !put_4bytes_len in A. lia.
Qed.

Lemma adds_len p c cached adds left f4 es M : wf p -> c_stores c = [] -> c_drops c = [] ->
  (forall k v, In (k, v) (c_adds c) -> (length (enc k) <= M)%nat /\ exists x, v = [x] /\ (length (enc x) <= M)%nat) ->
  save_data cached adds left (file p) c = Ok (f4, es) ->
  (length f4 <= length (file p) + length (c_adds c) * (2 * M + 12))%nat.
Proof.
  intros W Es Ed H E. unfold FileIndexModel.save_data in E. rewrite Es, Ed in E. cbn [commit_vals drop_vals app map] in E.
  rewrite app_nil_r in E.
  set (ds0 := add_kds L 0 (c_adds c)) in *.
  destruct (fetch_keydata L leq hash dec n (file p) ds0) as [kds| | |] eqn:Ek; try discriminate E.
  assert (ND0 : NoDup (map kd_serial ds0)) by (unfold ds0; rewrite add_kds_serial; apply upto_nodup).
  apply fetch_keydata_ok in Ek; [|exact W|exact ND0]. destruct Ek as [[res I] _].
  assert (Pm : Permutation (qsort kd_serial kds) kds) by apply qsort_perm.
  assert (Lk : length kds = length (c_adds c)).
  { rewrite <- (map_length kd_serial kds), (Permutation_length (inv_serial _ _ _ _ I)), map_length. apply add_kds_len. }
  set (A := firstn (N.to_nat (N.of_nat (length (c_adds c)))) (qsort kd_serial kds)) in *.
  assert (LA : length A = length (c_adds c)).
  { unfold A. rewrite firstn_length, (Permutation_length Pm). lia. }
  assert (Sk : skipn (N.to_nat (N.of_nat (length (c_adds c)))) (qsort kd_serial kds) = []).
  { apply skipn_all2. rewrite (Permutation_length Pm). lia. }
  rewrite Sk in E. cbn [combine map] in E.
  assert (HA : forall d, In d A -> In (kd_key d, kd_add d) (c_adds c)).
  { intros d Hi. assert (Hk : In d kds).
    { apply (Permutation_in _ Pm). rewrite <- (firstn_skipn (N.to_nat (N.of_nat (length (c_adds c)))) (qsort kd_serial kds)).
      apply in_or_app. left. exact Hi. }
    destruct (inv_good _ _ _ _ I d Hk) as [d0 [X1 [X2 [X3 [X4 _]]]]].
    rewrite X3, X4. apply (add_kds_in _ _ _ X1). }
  destruct (write_adds_len M A (file p)) as [W1 W2].
  { intros d Hi. apply (H _ _ (HA d Hi)). }
  destruct (write_adds L enc n (file p) A) as [f3 adds'] eqn:Ew. cbn [fst snd] in *. rewrite app_nil_r in E. injection E as E.
  pose proof (write_keys_len M adds' f3) as W3. rewrite E in W3. cbn [fst] in W3.
  assert (La : length adds' = length (c_adds c)).
  { rewrite <- (map_length kd_key adds'), W2, map_length. exact LA. }
  assert (X : (length f4 <= length f3 + length adds' * (M + 8))%nat).
  { apply W3. intros k Hk. rewrite W2 in Hk. apply in_map_iff in Hk. destruct Hk as [d [<- Hi]]. apply (H _ _ (HA d Hi)). }
  rewrite La in X. rewrite LA in W1. nia.
Qed.

(** More keys with one hash code than probes: one of them is out of reach. *)
Lemma crowd p k0 ks : wf p -> ordpairs (fun a b => leq a b = false) ks -> (258 < length ks)%nat ->
  (forall k, In k ks -> entry p k /\ hash k = hash k0) ->
  exists k, In k ks /\ forall i, i <= 257 -> other p k (probe k i).
Proof.
  intros W O Hl H.
  assert (X : exists ss, Forall2 (fun k s => exists k' l, leq k k' = true /\ holds p s k' l) ks ss).
  { clear -H. induction ks as [|k ks IH]; [exists []; constructor|].
    destruct IH as [ss F]; [intros x Hx; apply H; right; exact Hx|].
    destruct (H k (or_introl eq_refl)) as [[s [k' [l [A B]]]] _]. exists (s :: ss). constructor; [|exact F]. exists k', l. split; assumption. }
  destruct X as [ss F].
  assert (ND : NoDup ss).
  { clear -O F leq_sym leq_trans leq_refl hash hash_leq codec n_ok redundant. induction F as [|k s ks ss A F IH]; [constructor|].
    inversion O as [|? ? O1 O2]; subst. constructor; [|apply IH; exact O2].
    intros Hi. destruct (F2_in_r _ _ _ _ F Hi) as [k1 [K1 [k2 [l2 [K2 K3]]]]].
    destruct A as [k' [l [A1 A2]]]. destruct (holds_det _ _ _ _ _ _ A2 K3) as [<- _].
    pose proof (O1 k1 K1) as Y. rewrite (leq_trans k k' k1) in Y; [discriminate Y|exact A1|apply leq_sym; exact K2]. }
  set (Pr := map (fun i => probe k0 (N.of_nat i)) (seq 0 258)).
  assert (Y : incl ss Pr \/ exists s, In s ss /\ ~ In s Pr).
  { clear. induction ss as [|s ss IH]; [left; intros x []|].
    destruct (in_dec N.eq_dec s Pr) as [A|A]; [|right; exists s; split; [left; reflexivity|exact A]].
    destruct IH as [IH|[t [T1 T2]]]; [left; intros x [<-|Hx]; [exact A|apply IH; exact Hx]|].
    right. exists t. split; [right; exact T1|exact T2]. }
  destruct Y as [Y|[s [S1 S2]]].
  - pose proof (NoDup_incl_length ND Y) as Z. unfold Pr in Z. rewrite map_length, seq_length in Z.
    assert (length ss = length ks).
    { clear -F. induction F; [reflexivity|]. cbn [length]. congruence. }
    lia.
  - destruct (F2_in_r _ _ _ _ F S1) as [k [K1 [k' [l [K2 K3]]]]]. exists k. split; [exact K1|].
    destruct (wf_probe _ W _ _ _ K3) as [j [Ej Hj]]. intros i Hi.
    assert (Hij : i < j).
    { destruct (N.lt_ge_cases i j) as [A|A]; [exact A|]. exfalso. apply S2. unfold Pr. apply in_map_iff. exists (N.to_nat j).
      split; [|apply in_seq; lia]. rewrite N2Nat.id, Ej.
      rewrite (probe_hash k' k0); [reflexivity|]. rewrite <- (hash_leq _ _ K2). apply H. exact K1. }
    destruct (Hj i Hij) as [k1 [l1 [A B]]]. exists k1, l1. rewrite (probe_leq k k' i K2). split; [exact A|].
    rewrite (leq_l _ _ k1 K2). exact B.
Qed.

(** One key whose first probes are taken cannot be saved. *)
Lemma lone_overflow p k v cached adds left c : wf p -> (forall i, i <= 257 -> other p k (probe k i)) ->
  c_adds c = [(k, v)] -> c_stores c = [] -> c_drops c = [] -> save cached adds left (file p) c = Overflow.
Proof.
  intros W H E1 E2 E3. unfold FileIndexModel.save, FileIndexModel.save_data. rewrite E1, E2, E3.
  cbn [commit_vals drop_vals app map add_kds]. unfold fetch_keydata. cbn [map length].
  assert (Sh := wf_shape _ W).
  assert (G : forall u ch d fin j, kd_key d = k -> kd_slot d = probe k j -> kd_done d = false ->
     (kd_seek d = true /\ kd_pos d = 8 + 4 * kd_slot d /\ ch = 2 * j \/
      kd_seek d = false /\ kd_pos d = slot p (kd_slot d) + po /\ ch = 2 * j + 1) -> ch <= 257 ->
     258 < N.of_nat u + ch ->
     passes u (file p) ch [] [d] fin = Overflow).
  { induction u as [|u IH]; intros ch d fin j Kd Sd Dd St Hc Hl; [lia|].
    cbn [FileIndexModel.passes filter length Nat.eqb]. rewrite Dd. cbn [negb qsort fold_right insert FileIndexModel.pass_kd app length Nat.eqb].
    destruct (H j) as [k1 [l1 [H1 D1]]]; [lia|].
    destruct (holds_entry _ _ _ _ Sh H1) as [vp [F1 [F2 [F3 [F4 [F5 F6]]]]]].
    destruct St as [[S1 [S2 S3]]|[S1 [S2 S3]]].
    - unfold FileIndexModel.step_kd. rewrite S1, S2.
      destruct (read_slot p (kd_slot d) Sh) as [r Er]; [rewrite Sd; apply probe_lt|].
      rewrite Er, read_4bytes_put, N.mod_small by (apply slot_bound; exact Sh). rewrite Sd.
      destruct (N.eqb_spec (slot p (probe k j)) 0) as [Z|Z]; [exfalso; apply (proj1 (proj2 H1)); exact Z|]. cbn [negb].
      destruct (N.ltb_spec 256 ch) as [Y|Y]; [reflexivity|].
      apply (IH _ _ _ j); cbn; try assumption; try reflexivity; try lia.
      right. split; [reflexivity|]. split; [reflexivity|lia].
    - unfold FileIndexModel.step_kd. rewrite S1, S2, Sd, F3, Kd.
      destruct (leq k1 k) eqn:El; [apply leq_sym in El; congruence|].
      destruct (N.ltb_spec 256 ch) as [Y|Y]; [reflexivity|].
      apply (IH _ _ _ (j + 1)); cbn; try assumption; try reflexivity; try lia.
      rewrite Kd, Sd, probe_next. reflexivity. }
  rewrite (G (300 * 2)%nat 0 _ [] 0); [reflexivity|..]; cbn; try reflexivity; try lia.
  symmetry. apply probe_0.
Qed.

(** ** Between the offsets *)

(** The slots of [p''] are some of them those of [p], the others those of [p']. *)
Lemma torn p p' p'' g g' k lold lnew : wf p -> wf p' -> shape p'' ->
  data p'' = data p ++ g -> data p'' = data p' ++ g' -> flen (file p'') < 2 ^ 32 ->
  (forall s, slot p'' s = slot p s \/ slot p'' s = slot p' s) ->
  (forall s k1 l1, holds p s k1 l1 -> exists k2 l2, holds p' s k2 l2 /\ leq k1 k2 = true) ->
  value p k lold -> value p' k lnew -> redundant k = false ->
  let r := fetch L leq hash dec n redundant (file p'') k in
  r = Ok (choice_of lold) \/ r = Ok (choice_of lnew) \/ r = Overflow.
Proof.
  intros W W' Sh D1 D2 B Sl Kp Vo Vn R r. unfold r, fetch. rewrite R, <- probe_0.
  assert (G : forall left j, (forall i, i < j -> other p k (probe k i) \/ slot p (probe k i) = 0) ->
     let r := fetch_loop (file p'') k left (probe k j) in
     r = Ok (choice_of lold) \/ r = Ok (choice_of lnew) \/ r = Overflow).
  { induction left as [|left IH]; intros j Ho.
    all: set (s := probe k j); cbv zeta; cbn [FileIndexModel.fetch_loop];
      rewrite get_slot by (try apply probe_lt; assumption);
      destruct (N.eq_dec (slot p'' s) 0) as [Z|Z].
    1,3: left; rewrite Z; assert (Zo : slot p s = 0);
      [destruct (Sl s) as [X|X]; [congruence|];
       destruct (wf_slot _ W s (probe_lt k j)) as [Y|[k1 [l1 H1]]]; [exact Y|];
       destruct (Kp _ _ _ H1) as [k2 [l2 [[_ [H2 _]] _]]]; congruence
      |rewrite (search_free p k j lold W Vo Ho Zo); reflexivity].
    all: assert (He : exists k1 l1, holds p'' s k1 l1 /\
           (leq k k1 = true -> l1 = lold \/ l1 = lnew) /\
           (leq k k1 = false -> other p k s \/ slot p s = 0));
      [destruct (Sl s) as [X|X]|].
    1,4: destruct (wf_slot _ W s (probe_lt k j)) as [Y|[k1 [l1 H1]]]; [congruence|];
      exists k1, l1; split;
      [apply (holds_ext _ g) in H1; destruct H1 as [A1 [A2 A3]]; split; [exact A1|]; split; [exact Z|];
       rewrite X, D1; exact A3|];
      split; [intros E; left; apply (value_det p k1 k l1 lold W (leq_sym _ _ E)); [|exact Vo];
              left; exists s, k1; split; [apply leq_refl|exact H1]
             |intros E; left; exists k1, l1; split; assumption].
    1,3: destruct (wf_slot _ W' s (probe_lt k j)) as [Y|[k1 [l1 H1]]]; [congruence|];
      exists k1, l1; split;
      [apply (holds_ext _ g') in H1; destruct H1 as [A1 [A2 A3]]; split; [exact A1|]; split; [exact Z|];
       rewrite X, D2; exact A3|];
      split; [intros E; right; apply (value_det p' k1 k l1 lnew W' (leq_sym _ _ E)); [|exact Vn];
              left; exists s, k1; split; [apply leq_refl|exact H1]
             |intros E; destruct (wf_slot _ W s (probe_lt k j)) as [Y|[k2 [l2 H2]]]; [right; exact Y|left];
              exists k2, l2; split; [exact H2|]; destruct (Kp _ _ _ H2) as [k3 [l3 [H3 E3]]];
              destruct (holds_det _ _ _ _ _ _ H1 H3) as [<- _];
              destruct (leq k k2) eqn:F; [|reflexivity]; rewrite (leq_trans _ _ _ F E3) in E; discriminate E].
    all: destruct He as [k1 [l1 [H1 [He1 He2]]]];
      destruct (holds_entry _ _ _ _ Sh H1) as [vp [E1 [E2 [E3 [E4 [E5 E6]]]]]];
      assert (Hw : FileIndexModel.w32 (slot p'' s + po) = slot p'' s + po)
        by (unfold FileIndexModel.w32; apply N.mod_small; lia);
      destruct (slot p'' s) as [|o] eqn:Eo; [contradiction|]; rewrite Hw, E3;
      destruct (leq k k1) eqn:El.
    1,3: assert (X : Ok (choice_of l1) = Ok (choice_of lold) \/ Ok (choice_of l1) = Ok (choice_of lnew) \/ Ok (choice_of l1) = @Overflow (list L))
           by (destruct (He1 eq_refl) as [-> | ->]; [left|right; left]; reflexivity);
         destruct l1 as [|v l1]; [exact X|];
         destruct (N.eqb_spec (N.of_nat (length (v :: l1))) 0) as [Y|Y]; [discriminate Y|];
         rewrite (read_vals_ok _ _ _ _ _ Sh E5) by lia; exact X.
    - right; right; reflexivity.
    - unfold s. rewrite probe_next. apply IH. intros i Hi.
      destruct (N.eq_dec i j) as [->|D]; [exact (He2 eq_refl)|apply Ho; lia]. }
  apply G. intros i Hi. lia.
Qed.

Lemma save_torn p c cached adds left f4 es i k lold :
  wf p -> distinct c -> (forall k v, In (k, v) (c_adds c) -> v <> []) ->
  (forall k v, In (k, v) (c_drops c) -> cached k = None /\ adds k = None /\ redundant k = false) ->
  save_data cached adds left (file p) c = Ok (f4, es) -> flen f4 < 2 ^ 32 ->
  redundant k = false -> value p k lold ->
  let r := fetch L leq hash dec n redundant (fold_left (write_offset L) (firstn i (qsort kd_pos es)) f4) k in
  r = Ok (choice_of lold) \/ r = Ok (choice_of (spec c k lold)) \/ r = Overflow.
Proof.
  intros W Di Ha Hd E B R Vo.
  assert (Es : save cached adds left (file p) c = Ok (write_offsets L f4 es) \/
               (c_adds c = [] /\ c_drops c = [] /\ c_stores c = [])).
  { unfold FileIndexModel.save. rewrite E. destruct (c_adds c), (c_drops c), (c_stores c); auto. }
  destruct (save_data_ok p c cached adds left f4 es W Di Ha Hd E B) as [g [-> [p' [Q1 [[w1 [w2 [w3 [w4 w5]]]] [Q2 [Qk [Q3 [Q4 [Q5 Q6]]]]]]]]]].
  set (es' := firstn i (qsort kd_pos es)).
  assert (Pm : Permutation (qsort kd_pos es) es) by apply qsort_perm.
  assert (Inc : forall d, In d es' -> In d es).
  { intros d X. apply (Permutation_in _ Pm). rewrite <- (firstn_skipn i). apply in_or_app. left. exact X. }
  destruct (write_offsets_ok es' (ext p g) (wf_shape _ W)) as [p'' [E2 [S1 [S2 [S3 [S4 S5]]]]]].
  { apply (Permutation_NoDup (Permutation_map kd_slot (Permutation_sym Pm))) in w2.
    rewrite <- (firstn_skipn i (qsort kd_pos es)), map_app in w2. fold es' in w2.
    revert w2. generalize (map kd_slot (skipn i (qsort kd_pos es))) as b. generalize (map kd_slot es') as a. clear.
    induction a as [|x a IH]; intros b ND; [constructor|]. cbn [app] in ND. inversion ND as [|? ? N1 N2]; subst.
    constructor; [|apply (IH b N2)]. intros X. apply N1. apply in_or_app. left. exact X. }
  { intros d X. apply w3. apply Inc. exact X. }
  cbv zeta. rewrite E2.
  assert (Vn : exists lnew, value p' k lnew /\ (lnew = spec c k lold)).
  { (* the value after the save *)
    destruct Es as [Es|[X1 [X2 X3]]].
    - destruct (save_ok p c cached adds left (write_offsets L (file (ext p g)) es) W Di Ha Hd Es) as [p1 [P1 [P2 [P3 _]]]].
      { rewrite Q1. rewrite (file_len _ (wf_shape _ Q2)), w1.
        pose proof (file_len _ (shape_ext p g (wf_shape _ W))) as FL. rewrite FL in B. exact B. }
      exists (spec c k lold). split; [|reflexivity].
      assert (p1 = p') as ->; [|apply P3; exact Vo].
      { rewrite Q1 in P1. apply file_inj; [exact (wf_shape _ P2)|exact (wf_shape _ Q2)|]. symmetry. exact P1. }
    - exists lold. assert (En : es = []).
      { apply (f_equal (@length L)) in Qk. unfold touched in Qk. rewrite X1, X2, X3 in Qk. rewrite map_length in Qk.
        destruct es; [reflexivity|discriminate Qk]. }
      split; [|unfold spec; rewrite X1, X2, X3; reflexivity].
      subst es. destruct Vo as [[s [k' [A1 A2]]]|[-> A]].
      + left. exists s, k'. split; [exact A1|]. apply Q4; [exact A2|]. intros [].
      + right. split; [reflexivity|]. intros s k' l' H. destruct (Q5 _ _ _ H) as [[d [[] _]]|[X _]]. exact (A _ _ _ X). }
  destruct Vn as [lnew [Vn ->]].
  apply (torn p p' p'' g []); try assumption.
  - rewrite app_nil_r, S2, w1. reflexivity.
  - rewrite (file_len _ S1), S2. rewrite (file_len _ (shape_ext p g (wf_shape _ W))) in B. exact B.
  - intros s. destruct (in_dec N.eq_dec s (map kd_slot es')) as [X|X].
    + right. apply in_map_iff in X. destruct X as [d [<- X]]. rewrite (S4 d X), (w4 d (Inc d X)). reflexivity.
    + left. rewrite (S5 s X). reflexivity.
  - intros s k1 l1 H. destruct (in_dec N.eq_dec s (map kd_slot es)) as [X|X].
    + apply in_map_iff in X. destruct X as [d [<- X]]. destruct (Q3 d X) as [l' [_ H']].
      exists (kd_key d), l'. split; [exact H'|]. destruct (Q6 d X) as [Y|[k2 [l2 [Y1 Y2]]]].
      * destruct H as [_ [H _]]. contradiction.
      * destruct (holds_det _ _ _ _ _ _ H Y1) as [<- _]. exact Y2.
    + exists k1, l1. split; [apply Q4; assumption|apply leq_refl].
Qed.

End Index.

(** * Lemmas about files. *)
From Verif Require Import BytesModel FileModel.
Local Open Scope N_scope.

Lemma feq_refl : forall f, feq f f.
Proof. split; auto. Qed.
Lemma feq_sym : forall f g, feq f g -> feq g f.
Proof. intros f g [H1 H2]. split; [auto|]. intros i Hi. symmetry. apply H2. now rewrite H1. Qed.
Lemma feq_trans : forall f g h, feq f g -> feq g h -> feq f h.
Proof. intros f g h [A B] [C D]. split; [congruence|]. intros i Hi. rewrite B by assumption. apply D. now rewrite <- A. Qed.

Lemma fget_in : forall f i, i < fsize f -> fget f i = fbyte f i.
Proof. intros. unfold fget. destruct (N.ltb_spec i (fsize f)); [reflexivity|lia]. Qed.
Lemma fget_out : forall f i, fsize f <= i -> fget f i = 0.
Proof. intros. unfold fget. destruct (N.ltb_spec i (fsize f)); [lia|reflexivity]. Qed.
Lemma feq_fget : forall f g, feq f g <-> fsize f = fsize g /\ forall i, fget f i = fget g i.
Proof.
  intros f g. split.
  - intros [A B]. split; [assumption|]. intro i. unfold fget. rewrite <- A. destruct (N.ltb_spec i (fsize f)); auto.
  - intros [A B]. split; [assumption|]. intros i Hi. specialize (B i). rewrite !fget_in in B by lia. assumption.
Qed.

Lemma fwrite_size : forall f pos bs, bs <> [] -> fsize (fwrite f pos bs) = N.max (fsize f) (pos + blen bs).
Proof. intros f pos [|b bs] H; [congruence|reflexivity]. Qed.
Lemma fwrite_size_ge : forall f pos bs, fsize f <= fsize (fwrite f pos bs).
Proof. intros f pos [|b bs]; cbn [fwrite fsize]; lia. Qed.
Lemma fget_fwrite : forall f pos bs i,
  fget (fwrite f pos bs) i =
  if (pos <=? i) && (i <? pos + blen bs) then nth (N.to_nat (i - pos)) bs 0 else fget f i.
Proof.
  intros f pos [|b bs] i.
  - cbn [fwrite]. unfold blen. cbn [length]. destruct (N.leb_spec pos i); destruct (N.ltb_spec i (pos + N.of_nat 0)); try reflexivity; lia.
  - unfold fget at 1. cbn [fwrite fsize fbyte].
    destruct (N.ltb_spec i (N.max (fsize f) (pos + blen (b :: bs)))); [reflexivity|].
    destruct (N.leb_spec pos i); destruct (N.ltb_spec i (pos + blen (b :: bs))); cbn [andb]; try lia;
      rewrite fget_out by lia; reflexivity.
Qed.
Lemma fget_fwrite_out : forall f pos bs i, i < pos \/ pos + blen bs <= i -> fget (fwrite f pos bs) i = fget f i.
Proof.
  intros. rewrite fget_fwrite. destruct (N.leb_spec pos i); destruct (N.ltb_spec i (pos + blen bs)); cbn [andb]; try reflexivity; lia.
Qed.
Lemma fget_fwrite_in : forall f pos bs i, pos <= i < pos + blen bs -> fget (fwrite f pos bs) i = nth (N.to_nat (i - pos)) bs 0.
Proof.
  intros. rewrite fget_fwrite. destruct (N.leb_spec pos i); destruct (N.ltb_spec i (pos + blen bs)); cbn [andb]; try reflexivity; lia.
Qed.

Lemma fread_eq : forall f pos len, pos + N.of_nat len <= fsize f ->
  fread f pos len = Some (map (fun k => fget f (pos + N.of_nat k)) (seq 0 len)).
Proof.
  intros f pos len H. unfold fread. destruct (N.leb_spec (pos + N.of_nat len) (fsize f)); [|lia].
  f_equal. apply map_ext_in. intros k Hk. apply in_seq in Hk. rewrite fget_in by lia. reflexivity.
Qed.
Lemma fread_short : forall f pos len, fsize f < pos + N.of_nat len -> fread f pos len = None.
Proof. intros. unfold fread. destruct (N.leb_spec (pos + N.of_nat len) (fsize f)); [lia|reflexivity]. Qed.
Lemma fread_len : forall f pos len bs, fread f pos len = Some bs -> length bs = len.
Proof.
  intros f pos len bs H. unfold fread in H. destruct (_ <=? _); [|discriminate]. injection H as <-.
  now rewrite map_length, seq_length.
Qed.
Lemma fread_feq : forall f g pos len, feq f g -> fread f pos len = fread g pos len.
Proof.
  intros f g pos len [A B]. unfold fread. rewrite <- A. destruct (N.leb_spec (pos + N.of_nat len) (fsize f)); [|reflexivity].
  f_equal. apply map_ext_in. intros k Hk. apply in_seq in Hk. apply B. lia.
Qed.

Lemma map_nth_seq : forall (bs : bytes), map (fun k => nth k bs 0) (seq 0 (length bs)) = bs.
Proof.
  induction bs as [|b bs IH]; [reflexivity|]. cbn [length seq map nth]. f_equal.
  rewrite <- seq_shift, map_map. exact IH.
Qed.

(** Reading back what was written. *)
Lemma fread_fwrite_same : forall f pos bs, bs <> [] -> fread (fwrite f pos bs) pos (length bs) = Some bs.
Proof.
  intros f pos bs H. rewrite fread_eq.
  - f_equal. rewrite <- (map_nth_seq bs) at 2. apply map_ext_in. intros k Hk. apply in_seq in Hk.
    rewrite fget_fwrite_in by (unfold blen; lia). f_equal. lia.
  - rewrite fwrite_size by assumption. unfold blen. lia.
Qed.
(** A sub-range of what was written. *)
Lemma fread_fwrite_sub : forall f pos bs k len, (k + len <= length bs)%nat -> bs <> [] ->
  fread (fwrite f pos bs) (pos + N.of_nat k) len = Some (firstn len (skipn k bs)).
Proof.
  intros f pos bs k len H Hb. rewrite fread_eq.
  - f_equal. rewrite <- (map_nth_seq (firstn len (skipn k bs))).
    rewrite firstn_length, skipn_length. replace (Nat.min len (length bs - k)) with len by lia.
    apply map_ext_in. intros i Hi. apply in_seq in Hi.
    rewrite fget_fwrite_in by (unfold blen; lia).
    replace (N.to_nat (pos + N.of_nat k + N.of_nat i - pos)) with (k + i)%nat by lia.
    rewrite <- (firstn_skipn k bs) at 1. rewrite app_nth2 by (rewrite firstn_length; lia).
    rewrite firstn_length. replace (k + i - Nat.min k (length bs))%nat with i by lia.
    rewrite <- (firstn_skipn len (skipn k bs)) at 1. rewrite app_nth1; [reflexivity|].
    rewrite firstn_length, skipn_length. lia.
  - rewrite fwrite_size by assumption. unfold blen. lia.
Qed.
(** Reading elsewhere. *)
Lemma fread_fwrite_other : forall f pos bs pos' len,
  pos' + N.of_nat len <= fsize f ->
  pos' + N.of_nat len <= pos \/ pos + blen bs <= pos' ->
  fread (fwrite f pos bs) pos' len = fread f pos' len.
Proof.
  intros f pos bs pos' len Hs Hd. pose proof (fwrite_size_ge f pos bs). rewrite !fread_eq by lia.
  f_equal. apply map_ext_in. intros k Hk. apply in_seq in Hk. apply fget_fwrite_out. lia.
Qed.
Lemma fwrite_feq : forall f g pos bs, feq f g -> feq (fwrite f pos bs) (fwrite g pos bs).
Proof.
  intros f g pos bs H. apply feq_fget. apply feq_fget in H. destruct H as [A B]. split.
  - destruct bs; [assumption|]. rewrite !fwrite_size by discriminate. now rewrite A.
  - intro i. rewrite !fget_fwrite. rewrite B. reflexivity.
Qed.
(** Writing in two pieces. *)
Lemma fwrite_app : forall f pos a b, feq (fwrite (fwrite f pos a) (pos + blen a) b) (fwrite f pos (a ++ b)).
Proof.
  intros f pos a b. apply feq_fget. split.
  - destruct a as [|x a]; [cbn [app blen length]; unfold blen; cbn [length]; rewrite N.add_0_r; reflexivity|].
    destruct b as [|y b]; [rewrite app_nil_r; reflexivity|].
    rewrite !fwrite_size by discriminate. unfold blen. rewrite app_length. lia.
  - intro i. rewrite !fget_fwrite. unfold blen. rewrite app_length.
    destruct (N.leb_spec (pos + N.of_nat (length a)) i); destruct (N.ltb_spec i (pos + N.of_nat (length a) + N.of_nat (length b)));
    destruct (N.leb_spec pos i); destruct (N.ltb_spec i (pos + N.of_nat (length a)));
    destruct (N.ltb_spec i (pos + N.of_nat (length a + length b))); cbn [andb]; try reflexivity; try lia.
    + rewrite app_nth2 by lia. f_equal. lia.
    + rewrite app_nth1 by lia. reflexivity.
Qed.
Lemma map_seq_shift : forall (A : Type) (f : nat -> A) b a, map f (seq a b) = map (fun k => f (a + k)%nat) (seq 0 b).
Proof.
  induction b as [|b IH]; intro a; [reflexivity|]. cbn [seq map]. rewrite Nat.add_0_r. f_equal.
  rewrite (IH (S a)). rewrite <- (seq_shift b 0), map_map. apply map_ext. intro k. f_equal. lia.
Qed.
Lemma fread_app : forall f pos a b, fread f pos (a + b) =
  match fread f pos a, fread f (pos + N.of_nat a) b with
  | Some x, Some y => Some (x ++ y) | _, _ => None end.
Proof.
  intros f pos a b. destruct (N.le_gt_cases (pos + N.of_nat (a + b)) (fsize f)) as [H|H].
  - rewrite !fread_eq by lia. f_equal. rewrite seq_app, map_app. f_equal.
    rewrite Nat.add_0_l, map_seq_shift. apply map_ext. intro k. f_equal. lia.
  - rewrite fread_short by assumption. rewrite (fread_short f (pos + N.of_nat a)) by lia.
    destruct (fread f pos a); reflexivity.
Qed.
Lemma fread_none : forall f pos len, fread f pos len = None <-> fsize f < pos + N.of_nat len.
Proof.
  intros. unfold fread. destruct (N.leb_spec (pos + N.of_nat len) (fsize f)); split; intro; try discriminate; try lia; reflexivity.
Qed.

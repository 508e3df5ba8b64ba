(** * Lemmas about sequences: elements, slices, positions. *)
From Verif Require Import SeqModel SeqSpec.
Local Open Scope Z_scope.

Lemma zlen_nonneg A (l : list A) : 0 <= zlen l.
Proof. unfold zlen. lia. Qed.
Lemma zlen_map A B (f : A -> B) l : zlen (map f l) = zlen l.
Proof. unfold zlen. now rewrite map_length. Qed.
Lemma zref_in A (l : list A) i : 0 <= i < zlen l -> exists v, zref l i = Some v /\ nth_error l (Z.to_nat i) = Some v.
Proof.
  intro H. unfold zref, zlen in *. replace (i <? 0) with false by lia.
  destruct (nth_error l (Z.to_nat i)) eqn:E; [eauto|].
  apply nth_error_None in E. lia.
Qed.
Lemma to_int_value z : int_value z (to_int z).
Proof.
  unfold int_value, to_int, max_fix. change (2 ^ 61) with 2305843009213693952.
  destruct (2305843009213693952 - 1 <? z) eqn:A, (z <? - (2305843009213693952 - 1)) eqn:B; cbn [orb];
    try (right; split; [lia|reflexivity]); left; split; [lia|reflexivity].
Qed.
Lemma int_value_fun z v : int_value z v -> v = to_int z.
Proof.
  intro H. assert (K := to_int_value z). destruct H as [[H ->]|[H ->]], K as [[K ->]|[K ->]]; auto; lia.
Qed.
Lemma ints_map w zs l : Forall (fits w) zs -> Forall2 int_value zs l -> l = map to_int zs.
Proof.
  intros _ H. induction H; [reflexivity|]. cbn. f_equal; [now apply int_value_fun|auto].
Qed.
Lemma map_ints zs : Forall2 int_value zs (map to_int zs).
Proof. induction zs; constructor; auto using to_int_value. Qed.

(** ** Lists *)
Lemma proper_elts x l : proper x l -> pair_elts x = l /\ pair_length x = zlen l.
Proof.
  induction 1 as [|a d l H [IH1 IH2]]; [now split|].
  cbn [pair_elts pair_length]. rewrite IH1, IH2. split; [reflexivity|].
  unfold zlen. cbn [length]. lia.
Qed.
Lemma proper_fold l : proper (fold_right LPair LNil l) l.
Proof. induction l; constructor; auto. Qed.
Lemma proper_nil_inv l : proper LNil l -> l = [].
Proof. now inversion 1. Qed.

Lemma seq_length_ok k x l : is_seq k x l -> seq_length x = zlen l.
Proof.
  intro H. destruct H as [x l H| | | | |w zs l F H|]; cbn [seq_length]; rewrite ?zlen_map; try reflexivity.
  - destruct (proper_elts _ _ H) as [_ K]. destruct H; [reflexivity|exact K].
  - unfold zlen. rewrite app_length. lia.
  - now rewrite (ints_map _ _ _ F H), zlen_map.
Qed.
Lemma skipn_pre A (pre l : list A) : skipn (length pre) (pre ++ l) = l.
Proof. induction pre; auto. Qed.
Lemma zlen0 A (l : list A) : zlen l = 0 -> l = [].
Proof. destruct l; [reflexivity|]. unfold zlen. cbn [length]. lia. Qed.
Lemma seq_elts_ok k x l : is_seq k x l -> seq_elts x = Some l.
Proof.
  intro H. unfold seq_elts. rewrite (seq_length_ok _ _ _ H).
  pose proof (zlen_nonneg _ l). replace (zlen l <? 0) with false by lia.
  destruct (zlen l =? 0) eqn:E; [apply Z.eqb_eq in E; now rewrite (zlen0 _ _ E)|].
  destruct H as [x l H| | | | |w zs l F H|]; try reflexivity.
  - destruct (proper_elts _ _ H) as [K _]. destruct H; [cbn in E; discriminate|]. now rewrite K.
  - now rewrite skipn_pre.
  - now rewrite <- (ints_map _ _ _ F H).
Qed.
Lemma pair_elt_ok x l j i : proper x l -> j <= i ->
  pair_elt x j i = match nth_error l (Z.to_nat (i - j)) with Some v => SOk v | None => SRange end.
Proof.
  intro H. revert j. induction H as [|a d l H IH]; intros j Hj; cbn [pair_elt].
  - now destruct (Z.to_nat (i - j)).
  - destruct (j =? i) eqn:E.
    + replace (i - j) with 0 by lia. reflexivity.
    + rewrite IH by lia. replace (Z.to_nat (i - j)) with (S (Z.to_nat (i - (j + 1)))) by lia. reflexivity.
Qed.
Lemma elt_of_ok A (f : A -> lv) l i : 0 <= i ->
  elt_of f l i = match nth_error (map f l) (Z.to_nat i) with Some v => SOk v | None => SRange end.
Proof.
  intro H. unfold elt_of. destruct (zlen l <=? i) eqn:E.
  - replace (nth_error (map f l) (Z.to_nat i)) with (@None lv); [reflexivity|].
    symmetry. apply nth_error_None. rewrite map_length. unfold zlen in E. lia.
  - destruct (zref_in _ l i ltac:(lia)) as (v & -> & K).
    now rewrite (map_nth_error f _ _ K).
Qed.
(** An element, or KNO_RANGE_ERROR. *)
Lemma seq_elt_ok k x l i : is_seq k x l -> 0 <= i ->
  seq_elt x i = match nth_error l (Z.to_nat i) with Some v => SOk v | None => SRange end.
Proof.
  intros H Hi. unfold seq_elt. replace (i <? 0) with false by lia.
  destruct H as [x l H| | | | |w zs l F H|]; try (rewrite elt_of_ok by exact Hi; rewrite ?map_id; reflexivity).
  - pose proof (pair_elt_ok x l 0 i H Hi) as K. rewrite Z.sub_0_r in K.
    destruct H; [now destruct (Z.to_nat i)|exact K].
  - rewrite skipn_pre, elt_of_ok by exact Hi. now rewrite map_id.
  - rewrite elt_of_ok by exact Hi. now rewrite <- (ints_map _ _ _ F H).
Qed.

(** ** Slices *)
Lemma sub_map A B (f : A -> B) l s n : map f (sub l s n) = sub (map f l) s n.
Proof. unfold sub. now rewrite <- firstn_map, <- skipn_map. Qed.
Lemma sub_forall A (P : A -> Prop) l s n : Forall P l -> Forall P (sub l s n).
Proof.
  rewrite !Forall_forall. intros H x K. apply H. unfold sub in K.
  rewrite <- (firstn_skipn (Z.to_nat s) l). apply in_or_app. right.
  rewrite <- (firstn_skipn (Z.to_nat n) (skipn (Z.to_nat s) l)). apply in_or_app. now left.
Qed.
Lemma sub_slice l s e : sub l s (e - s) = slice_of l s e.
Proof. reflexivity. Qed.

Lemma pair_slice_ok x l : proper x l -> forall j s e acc, 0 <= j -> s <= e -> j <= e -> e <= j + zlen l ->
  (acc <> [] -> s <= j) ->
  exists r, pair_slice x j s e acc = SOk r /\
    proper r (rev acc ++ firstn (Z.to_nat (e - Z.max s j)) (skipn (Z.to_nat (s - j)) l)).
Proof.
  induction 1 as [|a d l H IH]; intros j s e acc Hj Hs He Hl Ha; cbn [pair_slice].
  - unfold zlen in Hl. cbn in Hl. assert (e = j) by lia. subst e.
    replace (j <? s) with false by lia. replace (j <=? j) with true by lia.
    eexists; split; [reflexivity|]. rewrite skipn_nil, firstn_nil, app_nil_r. apply proper_fold.
  - unfold zlen in Hl. cbn [length] in Hl. destruct (j =? e) eqn:E.
    + eexists; split; [reflexivity|]. replace (e - Z.max s j) with 0 by lia.
      cbn [Z.to_nat firstn]. rewrite app_nil_r. apply proper_fold.
    + destruct (s <=? j) eqn:Ej.
      * destruct (IH (j + 1) s e (a :: acc)) as (r & R1 & R2);
          [lia|lia|lia|unfold zlen; lia|intros _; lia|].
        exists r. split; [exact R1|].
        replace (Z.to_nat (s - j)) with 0%nat by lia.
        replace (Z.to_nat (s - (j + 1))) with 0%nat in R2 by lia.
        replace (Z.to_nat (e - Z.max s j)) with (S (Z.to_nat (e - Z.max s (j + 1)))) by lia.
        cbn [skipn firstn] in *. cbn [rev] in R2. now rewrite <- app_assoc in R2.
      * destruct (IH (j + 1) s e acc) as (r & R1 & R2);
          [lia|lia|lia|unfold zlen; lia|intro K; specialize (Ha K); lia|].
        exists r. split; [exact R1|].
        replace (Z.max s j) with s by lia. replace (Z.max s (j + 1)) with s in R2 by lia.
        replace (Z.to_nat (s - j)) with (S (Z.to_nat (s - (j + 1)))) by lia. exact R2.
Qed.

Lemma slice_ok k x l s e : is_seq k x l -> k <> KComp -> 0 <= s <= e -> e <= zlen l ->
  exists r, kno_slice x s e = SOk r /\ is_seq k r (slice_of l s e).
Proof.
  intros H Hk Hs He. unfold kno_slice. replace (s <? 0) with false by lia.
  destruct H as [x l H| | |st F|bs F|w zs l F H|d fs]; [| |now elim Hk| | | |].
  - pose proof H as H'. destruct H as [|a d l H].
    + unfold zlen in He. cbn in He. replace e with 0 by lia. replace s with 0 by lia.
      cbn. eexists; split; [reflexivity|]. constructor. constructor.
    + destruct (pair_slice_ok _ _ H' 0 s e []) as (r & R1 & R2); [lia|lia|lia|lia|easy|].
      exists r. split; [exact R1|]. constructor.
      rewrite Z.sub_0_r, Z.max_l in R2 by lia. exact R2.
  - replace (e <? 0) with false by lia. cbn [negb andb].
    replace (zlen l <? s) with false by lia. replace (zlen l <? e) with false by lia. cbn [orb].
    replace (e - s <? 0) with false by lia. eexists; split; [reflexivity|]. rewrite sub_slice. constructor.
  - rewrite zlen_map in He. replace (zlen st <? s) with false by lia. replace (e <? 0) with false by lia.
    replace (e - s <? 0) with false by lia. replace (zlen st - s <? e - s) with false by lia.
    eexists; split; [reflexivity|]. rewrite <- sub_slice, <- sub_map. constructor. now apply sub_forall.
  - rewrite zlen_map in He. replace (e <? 0) with false by lia. cbn [negb andb].
    replace (zlen bs <? e) with false by lia. replace (e - s <? 0) with false by lia.
    eexists; split; [reflexivity|]. rewrite <- sub_slice, <- sub_map. constructor. now apply sub_forall.
  - rewrite (ints_map _ _ _ F H), zlen_map in *. replace (zlen zs <? s) with false by lia.
    replace (zlen zs <? e) with false by lia. cbn [orb]. replace (e <? 0) with false by lia.
    replace (e - s <? 0) with false by lia.
    eexists; split; [reflexivity|]. rewrite <- sub_slice, <- sub_map. constructor; [now apply sub_forall|apply map_ints].
  - rewrite zlen_map in He. replace (zlen fs <? s) with false by lia.
    replace (zlen fs <? e) with false by lia. cbn [orb]. replace (e <? 0) with false by lia.
    replace (e - s <? 0) with false by lia.
    eexists; split; [reflexivity|]. rewrite <- sub_slice, <- sub_map. constructor.
Qed.

(** ** Arguments *)
Lemma seq_sequencep k x l : is_seq k x l -> sequencep x = true.
Proof. intro H. destruct H as [x l H| | | | | |]; try reflexivity. now destruct H. Qed.
Lemma start_ok a s : start_is a s ->
  match a with
  | AFix z => if intp z then if z <? 0 then None else Some z else None
  | ANone => Some 0 | AOther => None end = Some s.
Proof.
  unfold intp. change (2 ^ 31) with 2147483648.
  intros [[-> ->]|[-> H]]; [reflexivity|]. change (2 ^ 31) with 2147483648 in H.
  replace (- (2147483648) <=? s) with true by lia. replace (s <? 2147483648) with true by lia.
  replace (s <? 0) with false by lia. reflexivity.
Qed.
Lemma range_nonnil x a b : x <> LNil ->
  check_range x a b =
    if negb (sequencep x) then None
    else match (match a with
                | AFix z => if intp z then if z <? 0 then None else Some z else None
                | ANone => Some 0
                | AOther => None
                end) with
    | None => None
    | Some s =>
      match b with
      | ANone => Some (s, seq_length x)
      | AFix z =>
        if intp z then
          if z <? 0 then
            let off := seq_length x + z in
            if 0 <=? off then Some (s, off) else None
          else if seq_length x <? z then None
          else Some (s, z)
        else None
      | AOther => None
      end
    end.
Proof. now destruct x. Qed.
Lemma check_range_ok k x l a b s e : is_seq k x l -> zlen l < 2 ^ 31 ->
  start_is a s -> end_is b (zlen l) e -> (l = [] -> s = 0) -> check_range x a b = Some (s, e).
Proof.
  intros H Hl Ha Hb He.
  assert (D : x = LNil \/ x <> LNil) by (destruct x; auto; right; discriminate).
  destruct D as [->|D].
  - assert (l = []) as -> by (inversion H; subst; eauto using proper_nil_inv).
    rewrite (He eq_refl) in *. unfold zlen in Hb. cbn in Hb. cbn [check_range].
    destruct Ha as [[-> _]|[-> _]], Hb as [[-> ->]|[[-> K]|(z & -> & K & ->)]]; try lia;
      try reflexivity; assert (e = 0) by lia; subst; reflexivity.
  - rewrite (range_nonnil _ _ _ D), (seq_sequencep _ _ _ H). cbn [negb].
    rewrite (start_ok _ _ Ha), (seq_length_ok _ _ _ H). unfold intp.
    change (2 ^ 31) with 2147483648 in *.
    destruct Hb as [[-> ->]|[[-> K]|(z & -> & K & ->)]]; [reflexivity| |].
    + replace (- (2147483648) <=? e) with true by lia. replace (e <? 2147483648) with true by lia.
      cbn [andb]. replace (e <? 0) with false by lia. replace (zlen l <? e) with false by lia. reflexivity.
    + replace (- (2147483648) <=? z) with true by lia. replace (z <? 2147483648) with true by lia.
      cbn [andb]. replace (z <? 0) with true by lia. cbv zeta. replace (0 <=? zlen l + z) with true by lia.
      reflexivity.
Qed.

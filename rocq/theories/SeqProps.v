(** * C36: sequence operations; C57: secrets. *)
From Verif Require Import SeqModel SeqSpec SeqProofs SeqProofs2 SeqProofs3.
Local Open Scope Z_scope.

(** ** Elements *)

(** C36: [elt] returns the element at each place below the length, and a range error from
    there on and below 0, for every sequence of any kind except secrets. *)
Theorem C36_elt_partial : forall k x l i, is_seq k x l ->
  seq_length x = Z.of_nat (length l) /\
  (forall v, 0 <= i -> nth_error l (Z.to_nat i) = Some v -> seq_elt x i = SOk v) /\
  (i < 0 \/ Z.of_nat (length l) <= i -> seq_elt x i = SRange).
Proof.
  intros k x l i H. split; [now apply (seq_length_ok k)|]. split.
  - intros v Hi E. rewrite (seq_elt_ok k x l i H Hi). now rewrite E.
  - intros [Hi|Hi].
    + unfold seq_elt. now replace (i <? 0) with true by lia.
    + rewrite (seq_elt_ok k x l i H) by lia.
      now replace (nth_error l (Z.to_nat i)) with (@None lv) by (symmetry; apply nth_error_None; lia).
Qed.
Example C36_elt_case :
  is_seq KStr (LStr [97; 8364]%N) [LChar 97; LChar 8364] /\ seq_elt (LStr [97; 8364]%N) 1 = SOk (LChar 8364)
  /\ seq_elt (LStr [97; 8364]%N) 2 = SRange.
Proof. split; [|split; reflexivity]. apply (is_str [97; 8364]%N). repeat constructor; discriminate. Qed.
Print Assumptions C36_elt_partial.

(** ** Arguments *)

(** C36: a start that is negative or no fixnum, and an end beyond the length (in either
    direction) or no fixnum, are errors of all four primitives, whatever the kind. *)
Definition bad_start (a : parg) : Prop := a = AOther \/ exists z, a = AFix z /\ z < 0.
Definition bad_end (b : parg) (len : Z) : Prop := b = AOther \/ exists z, b = AFix z /\ (z < - len \/ len < z).
Theorem C36_args_partial : forall eqv ovl k x l key a b, is_seq k x l ->
  bad_start a \/ bad_end b (Z.of_nat (length l)) ->
  slice_prim x a b = SErr /\ position_prim eqv ovl key x a b = FErr /\
  rposition_prim eqv ovl key x a b = FErr /\ search_prim eqv ovl key x a b = FErr.
Proof.
  intros eqv ovl k x l key a b H B.
  assert (E : check_range x a b = None).
  { assert (D : x = LNil \/ x <> LNil) by (destruct x; auto; right; discriminate).
    destruct D as [->|D].
    - inversion H as [? ? K| | | | | |]; subst. apply proper_nil_inv in K. subst l. cbn [check_range].
      destruct B as [[->|(z & -> & Hz)]|[->|(z & -> & Hz)]].
      + reflexivity.
      + destruct z; try lia. destruct b as [|[| |]|]; reflexivity.
      + destruct a as [|[| |]|]; reflexivity.
      + cbn in Hz. destruct z; try lia; destruct a as [|[| |]|]; reflexivity.
    - rewrite (range_nonnil _ _ _ D), (seq_sequencep _ _ _ H). cbn [negb].
      rewrite (seq_length_ok _ _ _ H). unfold intp. change (2 ^ 31) with 2147483648.
      destruct B as [[->|(z & -> & Hz)]|B].
      + reflexivity.
      + destruct ((- (2147483648) <=? z) && (z <? 2147483648)); [|reflexivity].
        now replace (z <? 0) with true by lia.
      + match goal with |- match ?m with Some s => _ | None => None end = None =>
          destruct m as [s|]; [|reflexivity] end.
        destruct B as [->|(z & -> & Hz)]; [reflexivity|].
        destruct ((- (2147483648) <=? z) && (z <? 2147483648)); [|reflexivity].
        destruct (z <? 0) eqn:Ez; cbv zeta.
        * replace (0 <=? zlen l + z) with false by (unfold zlen; lia). reflexivity.
        * replace (zlen l <? z) with true by (unfold zlen; lia). reflexivity. }
  unfold slice_prim, position_prim, rposition_prim, search_prim. rewrite E. repeat split.
Qed.
Example C36_args_case : is_seq KPacket (LPacket false [7]%N) [LFix 7] /\ bad_end (AFix 2) 1
  /\ bad_end (AFix (-2)) 1 /\ ~ bad_end (AFix (-1)) 1.
Proof.
  split; [apply (is_packet [7]%N); repeat constructor|].
  split; [right; exists 2; split; [reflexivity|lia]|]. split; [right; exists (-2); split; [reflexivity|lia]|].
  intros [K|(z & K & Hz)]; [discriminate|]. injection K as <-. lia.
Qed.
Print Assumptions C36_args_partial.

(** ** Slices *)

(** C36: [slice] with a start and an end in order returns a sequence of the same kind
    with exactly the elements from start to end; an end that is missing is the length, a
    negative one counts from there.  (Not for compounds, which are refused.) *)
Theorem C36_slice_partial : forall k x l a b s e, is_seq k x l -> k <> KComp ->
  Z.of_nat (length l) < 2 ^ 31 ->
  start_is a s -> end_is b (Z.of_nat (length l)) e -> s <= e ->
  exists r, slice_prim x a b = SOk r /\ is_seq k r (slice_of l s e).
Proof.
  intros k x l a b s e H Hk L Ha Hb Hs. unfold slice_prim.
  assert (S0 : 0 <= s) by (destruct Ha as [[_ ->]|[_ Ha]]; lia).
  assert (E0 : e <= zlen l) by (unfold zlen; destruct Hb as [[_ ->]|[[_ Hb]|(z & _ & Hz & ->)]]; lia).
  rewrite (check_range_ok k x l a b s e H L Ha Hb) by (intros ->; unfold zlen in E0; cbn in E0; lia).
  destruct (slice_ok k x l s e H Hk ltac:(lia) E0) as (r & R1 & R2). exists r. now rewrite R1.
Qed.
Example C36_slice_case :
  is_seq KList (LPair (LFix 1) (LPair (LFix 2) (LPair (LFix 3) LNil))) [LFix 1; LFix 2; LFix 3]
  /\ start_is (AFix 1) 1 /\ end_is (AFix (-1)) 3 2
  /\ slice_prim (LPair (LFix 1) (LPair (LFix 2) (LPair (LFix 3) LNil))) (AFix 1) (AFix (-1)) = SOk (LPair (LFix 2) LNil)
  /\ slice_of [LFix 1; LFix 2; LFix 3] 1 2 = [LFix 2].
Proof.
  split; [repeat constructor|]. split; [right; split; [reflexivity|lia]|].
  split; [right; right; exists (-1); split; [reflexivity|lia]|]. split; reflexivity.
Qed.
Print Assumptions C36_slice_partial.

(** C36: a start beyond the length is an error for every kind but lists, and for lists if
    the end is the length. *)
Theorem C36_slice_start_partial : forall k x l a b s e, is_seq k x l -> Z.of_nat (length l) < 2 ^ 31 ->
  start_is a s -> end_is b (Z.of_nat (length l)) e -> Z.of_nat (length l) < s ->
  k <> KList \/ e = Z.of_nat (length l) ->
  slice_prim x a b = SErr.
Proof.
  intros k x l a b s e H L Ha Hb Hs Hk. unfold slice_prim.
  assert (E0 : 0 <= e <= zlen l) by (unfold zlen; destruct Hb as [[_ ->]|[[_ Hb]|(z & _ & Hz & ->)]]; lia).
  assert (D : x = LNil \/ x <> LNil) by (destruct x; auto; right; discriminate).
  destruct D as [->|D].
  { inversion H as [? ? K| | | | | |]; subst. apply proper_nil_inv in K. subst l. cbn [check_range].
    destruct Ha as [[-> ->]|[-> Ha]]; [cbn in Hs; lia|]. cbn in Hs. destruct s; try lia. reflexivity. }
  assert (C : check_range x a b = Some (s, e)).
  { destruct l as [|y l].
    - rewrite (range_nonnil _ _ _ D), (seq_sequencep _ _ _ H). cbn [negb].
      rewrite (start_ok _ _ Ha), (seq_length_ok _ _ _ H). unfold zlen in *. cbn [length Z.of_nat] in *.
      assert (e = 0) by lia. subst e.
      destruct Hb as [[-> _]|[[-> _]|(z & _ & Hz & _)]]; [reflexivity|reflexivity|lia].
    - apply (check_range_ok k x (y :: l)); [exact H|exact L|exact Ha|exact Hb|discriminate]. }
  rewrite C. clear C. unfold kno_slice. fold (zlen l) in *. replace (s <? 0) with false by lia.
  destruct H as [x l H| | |st F|bs F|w zs l F H|d fs].
  - destruct Hk as [Hk| ->]; [now elim Hk|]. destruct H as [|y d l H]; [now elim D|].
    assert (P : proper (LPair y d) (y :: l)) by now constructor.
    replace (pair_slice (LPair y d) 0 s (zlen (y :: l)) []) with SRange; [reflexivity|].
    assert (G : forall u m, proper u m -> forall j acc, 0 <= j -> j + zlen m < s -> 
                pair_slice u j s (j + zlen m) acc = SRange).
    { induction 1 as [|c u m Q IH]; intros j acc Hj Hj'; cbn [pair_slice].
      - replace (j <? s) with true by (unfold zlen in Hj'; cbn in Hj'; lia). reflexivity.
      - assert (Zm : zlen (c :: m) = 1 + zlen m) by (unfold zlen; cbn [length]; lia). rewrite Zm in *.
        pose proof (zlen_nonneg _ m). replace (j =? j + (1 + zlen m)) with false by lia.
        replace (j + (1 + zlen m)) with ((j + 1) + zlen m) by lia. apply IH; lia. }
    symmetry. apply (G _ _ P 0 []); lia.
  - replace (e <? 0) with false by lia. cbn [negb andb]. replace (zlen l <? s) with true by lia. reflexivity.
  - reflexivity.
  - rewrite zlen_map in *. replace (zlen st <? s) with true by lia. reflexivity.
  - rewrite zlen_map in *. replace (e <? 0) with false by lia. cbn [negb andb].
    replace (zlen bs <? e) with false by lia. replace (e - s <? 0) with true by lia. reflexivity.
  - rewrite (ints_map _ _ _ F H), zlen_map in *. replace (zlen zs <? s) with true by lia. reflexivity.
  - rewrite zlen_map in *. replace (zlen fs <? s) with true by lia. reflexivity.
Qed.
Example C36_slice_start_case : is_seq KVec (LVec [LFix 1]) [LFix 1] /\ start_is (AFix 2) 2 /\ end_is ANone 1 1
  /\ slice_prim (LVec [LFix 1]) (AFix 2) ANone = SErr.
Proof.
  split; [constructor|]. split; [right; split; [reflexivity|lia]|]. split; [now left|reflexivity].
Qed.
Print Assumptions C36_slice_start_partial.

(** C36, refuted for lists: a start beyond the end, even beyond the length, gives the
    empty list; and without the check of the primitive an end beyond the length gives
    what there is. *)
Theorem C36_slice_list_refuted : exists x l, is_seq KList x l /\
  slice_prim x (AFix 5) (AFix 2) = SOk LNil /\ length l = 3%nat /\ kno_slice x 0 100 = SOk x.
Proof.
  exists (LPair (LFix 1) (LPair (LFix 2) (LPair (LFix 3) LNil))), [LFix 1; LFix 2; LFix 3].
  split; [repeat constructor|]. now repeat split.
Qed.
Print Assumptions C36_slice_list_refuted.

(** C36, refuted for packets: kno_slice with an end beyond the length returns VOID, which
    is not an error. *)
Theorem C36_slice_packet_refuted : exists x l, is_seq KPacket x l /\ length l = 2%nat /\ kno_slice x 0 3 = SVoid.
Proof.
  exists (LPacket false [1; 2]%N), [LFix 1; LFix 2].
  split; [apply (is_packet [1; 2]%N); repeat constructor|]. now split.
Qed.
Print Assumptions C36_slice_packet_refuted.

(** C36, refuted for compounds: one that is a sequence (it has a length and elements) has
    no slices. *)
Theorem C36_slice_compound_refuted : exists x l, is_seq KComp x l /\ sequencep x = true /\ l <> [] /\
  forall a b, slice_prim x a b = SErr.
Proof.
  exists (LComp (LAtom 0) (Some 0%nat) [LFix 1]), [LFix 1].
  split; [apply (is_comp (LAtom 0) [] [LFix 1])|]. split; [reflexivity|]. split; [discriminate|].
  intros a b. unfold slice_prim. destruct (check_range _ a b) as [[s e]|]; [|reflexivity].
  unfold kno_slice. destruct (s <? 0); reflexivity.
Qed.
Print Assumptions C36_slice_compound_refuted.

(** ** Positions *)

(** C36: [position] returns the first place from start to end whose element matches the
    key, and false if there is none: for vectors, compounds, lists and packets, for
    strings with a character from 0x80 on; for other characters (but NUL) in strings and
    for numeric vectors if the end is the length. *)
Theorem C36_position_partial : forall eqv ovl k x l key a b s e, is_seq k x l ->
  Z.of_nat (length l) < 2 ^ 31 ->
  start_is a s -> end_is b (Z.of_nat (length l)) e -> s <= e ->
  (k = KStr -> forall c, key = LChar c -> (c < 0x80)%N -> c <> 0%N /\ e = Z.of_nat (length l)) ->
  ((exists w, k = KInts w) \/ (exists d, k = KFlos d) -> e = Z.of_nat (length l)) ->
  (exists i, position_prim eqv ovl key x a b = FPos i /\ first_in (matches eqv ovl k key) l s e i) \/
  (position_prim eqv ovl key x a b = FNone /\ none_in (matches eqv ovl k key) l s e).
Proof.
  intros eqv ovl k x l key a b s e H L Ha Hb Hs Hstr Hnum. unfold position_prim.
  assert (S0 : 0 <= s) by (destruct Ha as [[_ ->]|[_ Ha]]; lia).
  assert (E0 : e <= zlen l) by (unfold zlen; destruct Hb as [[_ ->]|[[_ Hb]|(z & _ & Hz & ->)]]; lia).
  rewrite (check_range_ok k x l a b s e H L Ha Hb) by (intros ->; unfold zlen in E0; cbn in E0; lia).
  destruct (position_ok eqv ovl k key x l s e H ltac:(lia) E0) as [(p & R & A)|[R A]].
  - intro C. split.
    + destruct k; try discriminate C; [|apply Hnum; eauto|apply Hnum; eauto].
      destruct key; try discriminate C. cbn in C. apply N.ltb_lt in C. now apply (Hstr eq_refl c eq_refl).
    + intros -> ->. now apply (Hstr eq_refl 0%N eq_refl).
  - left. exists p. rewrite R. split; [|exact A]. unfold found. destruct A as [A _]. now replace (0 <=? p) with true by lia.
  - right. rewrite R. split; [reflexivity|exact A].
Qed.
Example C36_position_case : forall eqv ovl, (forall a b, eqv (LFix a) (LFix b) = (a =? b)) ->
  let x := LPair (LFix 1) (LPair (LFix 2) (LPair (LFix 1) LNil)) in
  position_prim eqv ovl (LFix 1) x (AFix 1) ANone = FPos 2 /\
  position_prim eqv ovl (LFix 1) x (AFix 1) (AFix 2) = FNone /\
  first_in (matches eqv ovl KList (LFix 1)) [LFix 1; LFix 2; LFix 1] 1 3 2.
Proof.
  intros eqv ovl Q x. unfold position_prim, kno_position, x.
  split; [cbn; now rewrite !Q|]. split; [cbn; now rewrite Q|].
  split; [lia|]. split.
  - split; [lia|]. exists (LFix 1). split; [reflexivity|]. cbn. now rewrite Q.
  - intros j Hj [_ (y & Hy & M)]. replace j with 1 in Hy by lia. injection Hy as <-. cbn in M.
    rewrite Q in M. discriminate.
Qed.
Print Assumptions C36_position_partial.

(** C36: a start beyond the end is an error of [position] for every kind. *)
Theorem C36_position_order_partial : forall eqv ovl k x l key a b s e, is_seq k x l ->
  Z.of_nat (length l) < 2 ^ 31 ->
  start_is a s -> end_is b (Z.of_nat (length l)) e -> e < s ->
  position_prim eqv ovl key x a b = FErr.
Proof.
  intros eqv ovl k x l key a b s e H L Ha Hb Hs. unfold position_prim.
  assert (E0 : 0 <= e <= zlen l) by (unfold zlen; destruct Hb as [[_ ->]|[[_ Hb]|(z & _ & Hz & ->)]]; lia).
  assert (D : x = LNil \/ x <> LNil) by (destruct x; auto; right; discriminate).
  destruct D as [->|D].
  { inversion H as [? ? K| | | | | |]; subst. apply proper_nil_inv in K. subst l. cbn [check_range].
    destruct Ha as [[-> ->]|[-> Ha]]; [lia|]. destruct s; try lia. reflexivity. }
  assert (C : check_range x a b = Some (s, e)).
  { destruct l as [|y l].
    - rewrite (range_nonnil _ _ _ D), (seq_sequencep _ _ _ H). cbn [negb].
      rewrite (start_ok _ _ Ha), (seq_length_ok _ _ _ H). unfold zlen in *. cbn [length Z.of_nat] in *.
      assert (e = 0) by lia. subst e.
      destruct Hb as [[-> _]|[[-> _]|(z & _ & Hz & _)]]; [reflexivity|reflexivity|lia].
    - apply (check_range_ok k x (y :: l)); [exact H|exact L|exact Ha|exact Hb|discriminate]. }
  rewrite C. unfold kno_position. rewrite (seq_length_ok _ _ _ H).
  replace (zlen l <? 0) with false by lia. replace (e <? 0) with false by lia.
  replace (zlen l <? e) with false by lia. replace (s <? 0) with false by lia.
  replace (e <? 0) with false by lia. replace (e <? s) with true by lia. cbn [orb].
  destruct x as [| | | | | | | |[|]| | | | |]; reflexivity.
Qed.
Example C36_position_order_case : is_seq KVec (LVec [LFix 1]) [LFix 1] /\ start_is (AFix 2) 2 /\
  end_is (AFix (-1)) 1 0 /\ position_prim (fun _ _ => true) (fun _ _ => true) (LFix 1) (LVec [LFix 1]) (AFix 2) (AFix (-1)) = FErr.
Proof.
  split; [constructor|]. split; [right; split; [reflexivity|lia]|].
  split; [right; right; exists (-1); split; [reflexivity|lia]|reflexivity].
Qed.
Print Assumptions C36_position_order_partial.

(** C36: [rposition] returns the last place from start to end whose element is equal to
    the key: for vectors, compounds and packets; for lists and numeric vectors if start
    and end differ; for strings with a character below 0x80 if all characters are below
    0x80 and the end is the length, with other characters if start and end differ. *)
Theorem C36_rposition_partial : forall eqv ovl k x l key a b s e, is_seq k x l ->
  Z.of_nat (length l) < 2 ^ 31 ->
  start_is a s -> end_is b (Z.of_nat (length l)) e -> s <= e ->
  (k = KList \/ k = KStr \/ (exists w, k = KInts w) \/ (exists d, k = KFlos d) -> s < e) ->
  (k = KStr -> forall c, key = LChar c -> (c < 0x80)%N -> c <> 0%N /\ e = Z.of_nat (length l) /\
     forall d, In (LChar d) l -> (d < 0x80)%N) ->
  ((exists w, k = KInts w) \/ (exists d, k = KFlos d) -> e = Z.of_nat (length l)) ->
  (exists i, rposition_prim eqv ovl key x a b = FPos i /\ last_in (equals eqv ovl k key) l s e i) \/
  (rposition_prim eqv ovl key x a b = FNone /\ none_in (equals eqv ovl k key) l s e).
Proof.
  intros eqv ovl k x l key a b s e H L Ha Hb Hs Hk Hstr Hnum. unfold rposition_prim.
  assert (S0 : 0 <= s) by (destruct Ha as [[_ ->]|[_ Ha]]; lia).
  assert (E0 : e <= zlen l) by (unfold zlen; destruct Hb as [[_ ->]|[[_ Hb]|(z & _ & Hz & ->)]]; lia).
  rewrite (check_range_ok k x l a b s e H L Ha Hb) by (intros ->; unfold zlen in E0; cbn in E0; lia).
  destruct (rposition_ok eqv ovl k key x l s e H ltac:(lia) E0) as [(p & R & A)|[R A]].
  - destruct k; auto; apply Hk; eauto.
  - intro C. split.
    + destruct k; try discriminate C; [|apply Hnum; eauto|apply Hnum; eauto].
      destruct key; try discriminate C. cbn in C. apply N.ltb_lt in C. now apply (Hstr eq_refl c eq_refl).
    + intros -> ->. now apply (Hstr eq_refl 0%N eq_refl).
  - intros -> C. destruct key; try discriminate C. cbn in C. apply N.ltb_lt in C.
    now apply (Hstr eq_refl c eq_refl).
  - left. exists p. rewrite R. split; [|exact A]. unfold found. destruct A as [A _]. now replace (0 <=? p) with true by lia.
  - right. rewrite R. split; [reflexivity|exact A].
Qed.
Example C36_rposition_case : forall eqv ovl,
  rposition_prim eqv ovl (LChar 97) (LStr [97; 98; 97; 98]%N) (AFix 1) ANone = FPos 2 /\
  last_in (equals eqv ovl KStr (LChar 97)) (map LChar [97; 98; 97; 98]%N) 1 4 2.
Proof.
  intros. split; [reflexivity|]. split; [lia|]. split; [split; [lia|]; now exists (LChar 97)|].
  intros j Hj [_ (y & Hy & M)]. replace j with 3 in Hy by lia. injection Hy as <-. discriminate.
Qed.
Print Assumptions C36_rposition_partial.

(** In what follows, LISP_EQUAL is any function that tells fixnums apart. *)
Definition sane (eqv : lv -> lv -> bool) : Prop := forall a b, eqv (LFix a) (LFix b) = (a =? b).

(** C36, refuted: the end is not observed by [position] for characters below 0x80 in
    strings nor for numeric vectors: the place returned lies beyond it. *)
Theorem C36_position_end_refuted : forall eqv ovl, sane eqv ->
  (exists x l key, is_seq KStr x l /\ position_prim eqv ovl key x (AFix 0) (AFix 1) = FPos 2 /\ length l = 3%nat) /\
  (exists x l key, is_seq (KInts WInt) x l /\ position_prim eqv ovl key x (AFix 0) (AFix 1) = FPos 2 /\ length l = 3%nat).
Proof.
  intros eqv ovl Q. split.
  - exists (LStr [97; 98; 99]%N), (map LChar [97; 98; 99]%N), (LChar 99).
    split; [apply is_str; repeat constructor; discriminate|now split].
  - exists (LNumvec WInt [5; 6; 7]), (map LFix [5; 6; 7]), (LFix 7).
    split; [|split; [vm_compute; now rewrite !Q|reflexivity]].
    constructor; [repeat constructor; intro; discriminate|]. repeat constructor; intro; discriminate.
Qed.
Print Assumptions C36_position_end_refuted.

(** C36, refuted: with start and end the same, so with nothing to look at, [position]
    finds a character (the last one of the string), and in a numeric vector looks
    backwards and does not stop at 0. *)
Theorem C36_position_empty_refuted : forall eqv ovl, sane eqv ->
  (exists x l key, is_seq KStr x l /\ position_prim eqv ovl key x (AFix 1) (AFix 1) = FPos 2) /\
  (exists x l key, is_seq (KInts WInt) x l /\ position_prim eqv ovl key x (AFix 1) (AFix 1) = FLoop) /\
  (exists x l key, is_seq (KInts WInt) x l /\ position_prim eqv ovl key x (AFix 1) (AFix 1) = FPos 0).
Proof.
  intros eqv ovl Q.
  assert (I : is_seq (KInts WInt) (LNumvec WInt [5; 6; 7]) (map LFix [5; 6; 7])).
  { constructor; [repeat constructor; intro; discriminate|]. repeat constructor; intro; discriminate. }
  split; [|split].
  - exists (LStr [97; 98; 98]%N), (map LChar [97; 98; 98]%N), (LChar 98).
    split; [apply is_str; repeat constructor; discriminate|reflexivity].
  - exists (LNumvec WInt [5; 6; 7]), (map LFix [5; 6; 7]), (LFix 8). split; [exact I|]. vm_compute. now rewrite !Q.
  - exists (LNumvec WInt [5; 6; 7]), (map LFix [5; 6; 7]), (LFix 5). split; [exact I|]. vm_compute. now rewrite !Q.
Qed.
Print Assumptions C36_position_empty_refuted.

(** C36, refuted: the NUL character is found in strings that do not have it. *)
Theorem C36_position_nul_refuted : forall eqv ovl, exists x l, is_seq KStr x l /\ ~ In (LChar 0) l /\
  position_prim eqv ovl (LChar 0) x ANone ANone = FPos (Z.of_nat (length l)).
Proof.
  intros. exists (LStr [97; 98]%N), (map LChar [97; 98]%N).
  split; [apply is_str; repeat constructor; discriminate|]. split; [|reflexivity].
  cbn. intros [K|[K|[]]]; discriminate.
Qed.
Print Assumptions C36_position_nul_refuted.

(** C36, refuted: [rposition] in a string misses a character because there is one more of
    them beyond the end; takes the start as a number of bytes, so finds one before the
    start; and for a list with start and end the same returns an uninitialised
    variable. *)
Theorem C36_rposition_refuted : forall eqv ovl, 
  (exists x l key, is_seq KStr x l /\ nth_error l 0 = Some key /\
     rposition_prim eqv ovl key x (AFix 0) (AFix 1) = FNone) /\
  (exists x l key, is_seq KStr x l /\ rposition_prim eqv ovl key x (AFix 2) ANone = FPos 1) /\
  (exists x l key, is_seq KList x l /\ rposition_prim eqv ovl key x (AFix 1) (AFix 1) = FJunk).
Proof.
  intros eqv ovl. split; [|split].
  - exists (LStr [97; 97]%N), (map LChar [97; 97]%N), (LChar 97).
    split; [apply is_str; repeat constructor; discriminate|]. now split.
  - exists (LStr [228; 97; 98]%N), (map LChar [228; 97; 98]%N), (LChar 97).
    split; [apply is_str; repeat constructor; discriminate|]. reflexivity.
  - exists (LPair (LFix 1) LNil), [LFix 1], (LFix 1). split; [repeat constructor|]. reflexivity.
Qed.
Print Assumptions C36_rposition_refuted.

(** C36, refuted: [position] and [rposition] do not agree on what an element of a vector
    has to be: one of them finds a choice that the key is in, the other does not. *)
Theorem C36_rposition_choice_refuted : forall eqv ovl, let c := LChoice [LFix 1; LFix 2] in
  eqv (LFix 1) c = false -> ovl (LFix 1) c = true ->
  position_prim eqv ovl (LFix 1) (LVec [c]) ANone ANone = FPos 0 /\
  rposition_prim eqv ovl (LFix 1) (LVec [c]) ANone ANone = FNone.
Proof. intros eqv ovl c E O. subst c. split; vm_compute; now rewrite E, ?O. Qed.
Print Assumptions C36_rposition_choice_refuted.

(** ** Subsequences *)

(** C36: [search] for a vector in a vector returns the first place where it lies in whole
    between start and end, and false if there is none. *)
Theorem C36_search_partial : forall eqv ovl (k l : list lv) a b s e, k <> [] ->
  Z.of_nat (length l) < 2 ^ 31 ->
  (forall a b, eqv a b = eqv b a) -> (forall a b, ovl a b = ovl b a) ->
  start_is a s -> end_is b (Z.of_nat (length l)) e ->
  (exists i, search_prim eqv ovl (LVec k) (LVec l) a b = FPos i /\ first_sub (matches eqv ovl KVec) k l s e i) \/
  (search_prim eqv ovl (LVec k) (LVec l) a b = FNone /\ no_sub (matches eqv ovl KVec) k l s e).
Proof.
  intros eqv ovl k l a b s e Hk L S1 S2 Ha Hb. unfold search_prim.
  assert (S0 : 0 <= s) by (destruct Ha as [[_ ->]|[_ Ha]]; lia).
  assert (E0 : 0 <= e <= zlen l) by (unfold zlen; destruct Hb as [[_ ->]|[[_ Hb]|(z & _ & Hz & ->)]]; lia).
  assert (C : check_range (LVec l) a b = Some (s, e)).
  { destruct l as [|y l].
    - rewrite range_nonnil by discriminate. cbn [sequencep negb].
      rewrite (start_ok _ _ Ha). unfold zlen in *. cbn [length Z.of_nat seq_length zlen] in *.
      assert (e = 0) by lia. subst e.
      destruct Hb as [[-> _]|[[-> _]|(z & _ & Hz & _)]]; [reflexivity|reflexivity|lia].
    - apply (check_range_ok KVec (LVec (y :: l)) (y :: l)); [constructor|exact L|exact Ha|exact Hb|discriminate]. }
  rewrite C. unfold kno_search. destruct (e <=? s) eqn:E.
  - right. split; [reflexivity|]. intros j Hj Hj'. destruct k; [now elim Hk|]. cbn [length] in Hj'. lia.
  - destruct (vector_search_ok eqv ovl k l s e Hk ltac:(lia) ltac:(lia) S1 S2) as [(p & R & A)|[R A]].
    + left. exists p. rewrite R. split; [|exact A]. unfold found. destruct A as [A _].
      now replace (0 <=? p) with true by lia.
    + right. rewrite R. now split.
Qed.
Example C36_search_case : forall eqv ovl, sane eqv ->
  search_prim eqv ovl (LVec [LFix 1; LFix 2]) (LVec [LFix 1; LFix 1; LFix 2]) ANone ANone = FPos 1.
Proof. intros eqv ovl Q. vm_compute. now rewrite !Q. Qed.
Print Assumptions C36_search_partial.

(** C36: [search] for a string in a string, if the end is the length. *)
Theorem C36_search_string_partial : forall eqv ovl (k st : list N) a b s, k <> [] ->
  Z.of_nat (length st) < 2 ^ 31 ->
  start_is a s -> end_is b (Z.of_nat (length st)) (Z.of_nat (length st)) ->
  (exists i, search_prim eqv ovl (LStr k) (LStr st) a b = FPos i /\
     first_sub eq (map LChar k) (map LChar st) s (Z.of_nat (length st)) i) \/
  (search_prim eqv ovl (LStr k) (LStr st) a b = FNone /\
     no_sub eq (map LChar k) (map LChar st) s (Z.of_nat (length st))).
Proof.
  intros eqv ovl k st a b s Hk L Ha Hb. unfold search_prim.
  assert (S0 : 0 <= s) by (destruct Ha as [[_ ->]|[_ Ha]]; lia).
  assert (C : check_range (LStr st) a b = Some (s, zlen st)).
  { rewrite range_nonnil by discriminate. cbn [sequencep negb]. rewrite (start_ok _ _ Ha).
    cbn [seq_length]. fold (zlen st) in *. destruct Hb as [[-> _]|[[-> Hb]|(z & -> & Hz & He)]].
    - reflexivity.
    - unfold intp. change (2 ^ 31) with 2147483648 in *. replace (- (2147483648) <=? zlen st) with true by lia.
      replace (zlen st <? 2147483648) with true by lia. cbn [andb]. replace (zlen st <? 0) with false by lia.
      now rewrite Z.ltb_irrefl.
    - lia. }
  rewrite C. unfold kno_search. fold (zlen st). destruct (zlen st <=? s) eqn:E.
  - right. split; [reflexivity|]. intros j Hj Hj'. rewrite map_length in Hj'. destruct k; [now elim Hk|].
    cbn [length] in Hj'. lia.
  - destruct (string_search_ok k st s Hk ltac:(lia)) as [(p & R & A)|[R A]].
    + left. exists p. rewrite R. split; [|exact A]. unfold found. destruct A as [A _].
      now replace (0 <=? p) with true by lia.
    + right. rewrite R. now split.
Qed.
Example C36_search_string_case : forall eqv ovl,
  search_prim eqv ovl (LStr [98; 8364]%N) (LStr [98; 98; 8364]%N) (AFix 1) ANone = FPos 1.
Proof. reflexivity. Qed.
Print Assumptions C36_search_string_partial.

(** C36: [search] for a packet in a packet, if the end is the length and memcmp does not
    get beyond the packet. *)
Theorem C36_search_packet_partial : forall eqv ovl (k p : list N) a s, k <> [] ->
  start_is a s -> 
  search_prim eqv ovl (LPacket false k) (LPacket false p) a ANone <> FJunk ->
  let bytes := map (fun b => LFix (Z.of_N b)) in
  (exists i, search_prim eqv ovl (LPacket false k) (LPacket false p) a ANone = FPos i /\
     first_sub eq (bytes k) (bytes p) s (Z.of_nat (length p)) i) \/
  (search_prim eqv ovl (LPacket false k) (LPacket false p) a ANone = FNone /\
     no_sub eq (bytes k) (bytes p) s (Z.of_nat (length p))).
Proof.
  intros eqv ovl k p a s Hk Ha. unfold search_prim.
  assert (S0 : 0 <= s) by (destruct Ha as [[_ ->]|[_ Ha]]; lia).
  assert (C : check_range (LPacket false p) a ANone = Some (s, zlen p)).
  { rewrite range_nonnil by discriminate. cbn [sequencep negb]. now rewrite (start_ok _ _ Ha). }
  rewrite C. unfold kno_search. destruct (zlen p <=? s) eqn:E; intros J; cbv zeta.
  - right. split; [reflexivity|]. intros j Hj Hj'. rewrite map_length in Hj'.
    destruct k; [now elim Hk|]. unfold zlen in *. cbn [length] in Hj'. lia.
  - destruct (packet_search_ok k p s Hk ltac:(lia)) as [(i & R & A)|[R A]].
    + intro K. now rewrite K in J.
    + left. exists i. rewrite R. split; [|exact A]. unfold found. destruct A as [A _].
      now replace (0 <=? i) with true by lia.
    + right. rewrite R. now split.
Qed.
Example C36_search_packet_case : forall eqv ovl,
  search_prim eqv ovl (LPacket false [1; 2]%N) (LPacket false [1; 1; 2]%N) ANone ANone = FPos 1.
Proof. reflexivity. Qed.
Print Assumptions C36_search_packet_partial.

(** C36, refuted: the place found lies before the start (for the empty string), the match
    goes beyond the end (strings and packets), or bytes beyond the packet are looked
    at. *)
Theorem C36_search_refuted : forall eqv ovl,
  search_prim eqv ovl (LStr []) (LStr [97; 98]%N) (AFix 1) ANone = FPos 0 /\
  search_prim eqv ovl (LStr [98; 99]%N) (LStr [97; 98; 99]%N) (AFix 0) (AFix 2) = FPos 1 /\
  search_prim eqv ovl (LPacket false [2; 3]%N) (LPacket false [1; 2; 3]%N) (AFix 0) (AFix 2) = FPos 1 /\
  search_prim eqv ovl (LPacket false [2; 3]%N) (LPacket false [1; 2]%N) ANone ANone = FJunk.
Proof. repeat split. Qed.
Print Assumptions C36_search_refuted.

(** C36, refuted for lists: a list that occurs is not found, because the limit for the
    first element is computed from the place reached, not from the end. *)
Theorem C36_search_list_refuted : forall eqv ovl, sane eqv -> exists x l k kl,
  is_seq KList x l /\ is_seq KList k kl /\ sub_at eq kl l 3 /\
  search_prim eqv ovl k x ANone ANone = FNone.
Proof.
  intros eqv ovl Q.
  exists (fold_right LPair LNil (map LFix [1; 2; 4; 2; 3])), (map LFix [1; 2; 4; 2; 3]),
         (fold_right LPair LNil (map LFix [2; 3])), (map LFix [2; 3]).
  split; [repeat constructor|]. split; [repeat constructor|].
  split.
  - split; [lia|]. exists (map LFix [1; 2; 4]), (map LFix [2; 3]), []. split; [reflexivity|].
    split; [reflexivity|repeat constructor].
  - cbn. change (Pos.to_nat 5 + 2)%nat with 7%nat. cbn. rewrite !Q. cbn. change (Pos.to_nat 1) with 1%nat. cbn. rewrite !Q. reflexivity.
Qed.
Print Assumptions C36_search_list_refuted.

(** C36, refuted: [match?] on lists compares the prefix with itself, so it is true of any
    prefix that is not longer than the list. *)
Theorem C36_match_refuted : forall eqv, sane eqv -> exists p x,
  is_seq KList p [LFix 1] /\ is_seq KList x [LFix 2] /\ seqmatch_prim eqv p x 0 = Some true.
Proof.
  intros eqv Q. exists (LPair (LFix 1) LNil), (LPair (LFix 2) LNil).
  split; [repeat constructor|]. split; [repeat constructor|]. vm_compute. now rewrite Q.
Qed.
Print Assumptions C36_match_refuted.

(** ** Reversing, appending, removing *)

(** C36: [reverse] returns the elements in reverse order, for all sequences but numeric
    vectors; in a sequence of the same kind, or a vector for a compound. *)
Theorem C36_reverse_partial : forall k x l, is_seq k x l ->
  (forall w, k <> KInts w) -> (forall d, k <> KFlos d) ->
  exists r, kno_reverse x = SOk r /\ is_seq (made k) r (rev l).
Proof.
  intros k x l H K1 K2. apply reverse_ok; auto. destruct k; auto; [now elim (K1 w)|now elim (K2 dbl)].
Qed.
Example C36_reverse_case : kno_reverse (LStr [97; 8364]%N) = SOk (LStr [8364; 97]%N) /\
  kno_reverse (LPair (LFix 1) (LPair (LFix 2) LNil)) = SOk (LPair (LFix 2) (LPair (LFix 1) LNil)).
Proof. split; reflexivity. Qed.
Print Assumptions C36_reverse_partial.

(** C36, refuted: a numeric vector is returned as it was. *)
Theorem C36_reverse_numbers_refuted : exists x l, is_seq (KInts WInt) x l /\ kno_reverse x = SOk x /\ rev l <> l.
Proof.
  exists (LNumvec WInt [1; 2]), [LFix 1; LFix 2]. split.
  - constructor; [repeat constructor; intro; discriminate|]. repeat constructor; intro; discriminate.
  - split; [reflexivity|discriminate].
Qed.
Print Assumptions C36_reverse_numbers_refuted.

(** C36: [append] of sequences of one kind returns a sequence of that kind (a vector for
    compounds and numeric vectors) with the elements of all of them in order. *)
Theorem C36_append_partial : forall k x xs ls, Forall2 (is_seq k) (x :: xs) ls ->
  exists r, kno_append (x :: xs) = SOk r /\ is_seq (made k) r (concat ls).
Proof. intros. now apply append_ok. Qed.
Example C36_append_case : kno_append [LStr [97]%N; LStr [98]%N; LStr []] = SOk (LStr [97; 98]%N).
Proof. reflexivity. Qed.
Print Assumptions C36_append_partial.

(** C36: [append] of sequences of any kinds returns the elements of all in order, if it
    is not a string that comes first and a packet later; the result is of the kind of
    the first or a vector. *)
Theorem C36_append_mixed_partial : forall x xs k1 l1 (kls : list (kind * list lv)),
  is_seq k1 x l1 -> Forall2 (fun y kl => is_seq (fst kl) y (snd kl)) xs kls ->
  (k1 = KStr -> ~ In KPacket (map fst kls)) ->
  exists r, kno_append (x :: xs) = SOk r /\
    (is_seq (made k1) r (l1 ++ concat (map snd kls)) \/ is_seq KVec r (l1 ++ concat (map snd kls))).
Proof. intros x xs k1 l1 kls H F P. apply append_general; [|exact P]. constructor; [exact H|exact F]. Qed.
Example C36_append_mixed_case :
  kno_append [LPair (LFix 1) LNil; LStr [97]%N; LNumvec WInt [3]] = SOk (LVec [LFix 1; LChar 97; LFix 3]).
Proof. reflexivity. Qed.
Print Assumptions C36_append_mixed_partial.

(** C36, refuted: a string and a packet give a packet, in which of each character only
    the lowest byte is left; and what comes after the last pair of a list is dropped. *)
Theorem C36_append_refuted :
  kno_append [LStr [8364]%N; LPacket false [1]%N] = SOk (LPacket false [0xAC; 1]%N) /\
  kno_append [LPair (LFix 1) (LFix 2); LPair (LFix 3) LNil] = SOk (LPair (LFix 1) (LPair (LFix 3) LNil)).
Proof. split; reflexivity. Qed.
Print Assumptions C36_append_refuted.

(** C36: [remove] returns the elements not equal to the item, in order. *)
Theorem C36_remove_partial : forall eqv item k x l, is_seq k x l ->
  exists r, kno_remove eqv item x = SOk r /\
    let kept := filter (fun e => negb (eqv e item)) l in is_seq k r kept \/ is_seq (made k) r kept.
Proof. intros. now apply remove_ok. Qed.
Example C36_remove_case : forall eqv, sane eqv ->
  kno_remove eqv (LFix 2) (LVec [LFix 1; LFix 2; LFix 3; LFix 2]) = SOk (LVec [LFix 1; LFix 3]).
Proof. intros eqv Q. vm_compute. now rewrite !Q. Qed.
Print Assumptions C36_remove_partial.

(** C36: cutting a list, vector, string or packet at any place and appending the two
    parts gives the elements again, in a sequence of the same kind. *)
Theorem C36_split_partial : forall k x l i, is_seq k x l ->
  k = KList \/ k = KVec \/ k = KStr \/ k = KPacket ->
  Z.of_nat (length l) < 2 ^ 31 -> 0 <= i <= Z.of_nat (length l) ->
  exists a b r, slice_prim x ANone (AFix i) = SOk a /\ slice_prim x (AFix i) ANone = SOk b /\
    kno_append [a; b] = SOk r /\ is_seq k r l.
Proof.
  intros k x l i H K L Hi.
  assert (Nc : k <> KComp) by (destruct K as [-> | [-> | [-> | ->]]]; discriminate).
  assert (Mk : made k = k) by (now destruct K as [-> | [-> | [-> | ->]]]).
  destruct (C36_slice_partial k x l ANone (AFix i) 0 i H Nc L) as (a & A1 & A2); [now left|right; left; now split|lia|].
  destruct (C36_slice_partial k x l (AFix i) ANone i (Z.of_nat (length l)) H Nc L) as (b & B1 & B2);
    [right; split; [reflexivity|lia]|now left|lia|].
  exists a, b. destruct (append_ok k a [b] [slice_of l 0 i; slice_of l i (Z.of_nat (length l))]) as (r & R1 & R2).
  { repeat constructor; assumption. }
  exists r. rewrite Mk in R2. repeat (split; [assumption|]).
  replace l with (concat [slice_of l 0 i; slice_of l i (Z.of_nat (length l))]); [exact R2|].
  unfold slice_of. cbn [concat]. rewrite app_nil_r. change (Z.to_nat 0) with 0%nat. rewrite Z.sub_0_r, skipn_O.
  rewrite (firstn_all2 (skipn (Z.to_nat i) l)) by (rewrite skipn_length; lia). apply firstn_skipn.
Qed.
Example C36_split_case : slice_prim (LStr [97; 98; 99]%N) ANone (AFix 1) = SOk (LStr [97]%N) /\
  slice_prim (LStr [97; 98; 99]%N) (AFix 1) ANone = SOk (LStr [98; 99]%N).
Proof. split; reflexivity. Qed.
Print Assumptions C36_split_partial.

(** ** Secrets *)

(** Two results that do not tell two secrets apart: the same, or secrets of one length. *)
Definition alike (r r' : sres) : Prop :=
  r = r' \/ exists bs bs', r = SOk (LPacket true bs) /\ r' = SOk (LPacket true bs') /\ length bs = length bs'.

(** C57: what the operations return for a secret depends on its length only, except for
    the bytes in a result that is itself a secret: elements, slices from the primitive,
    positions, subsequences (the secret as either argument), reverse, append (at any
    place) and remove. *)
Theorem C57_secret_partial : forall eqv ovl bs bs', length bs = length bs' ->
  let x := LPacket true bs in let x' := LPacket true bs' in
  (forall i, seq_elt x i = seq_elt x' i) /\
  (forall a b, alike (slice_prim x a b) (slice_prim x' a b)) /\
  (forall key a b, position_prim eqv ovl key x a b = position_prim eqv ovl key x' a b) /\
  (forall key a b, rposition_prim eqv ovl key x a b = rposition_prim eqv ovl key x' a b) /\
  (forall key a b, search_prim eqv ovl key x a b = search_prim eqv ovl key x' a b) /\
  (forall y a b, search_prim eqv ovl x y a b = search_prim eqv ovl x' y a b) /\
  kno_reverse x = kno_reverse x' /\
  (forall pre post, kno_append (pre ++ x :: post) = kno_append (pre ++ x' :: post)) /\
  (forall item, alike (kno_remove eqv item x) (kno_remove eqv item x')).
Proof.
  intros eqv ovl bs bs' L x x'.
  assert (Z0 : zlen bs = zlen bs') by (unfold zlen; lia).
  assert (R : forall a b, check_range x a b = check_range x' a b).
  { intros a b. unfold x, x'. rewrite !range_nonnil by discriminate. cbn [sequencep negb seq_length]. now rewrite Z0. }
  assert (E : seq_elts x = seq_elts x').
  { unfold seq_elts, x, x'. cbn [seq_length]. now rewrite Z0. }
  split; [reflexivity|]. split; [|split; [|split; [|split; [|split; [|split; [|split]]]]]].
  - intros a b. unfold slice_prim. rewrite <- R. destruct (check_range x a b) as [[s e]|] eqn:C; [|now left].
    unfold kno_slice, x, x'. destruct (s <? 0); [now left|]. rewrite <- Z0.
    destruct (negb (e <? 0) && (zlen bs <? e)); [now left|]. cbv zeta.
    destruct ((if e <? 0 then zlen bs else e) - s <? 0); [now left|].
    assert (E1 : e <? 0 = false).
    { unfold x in C. rewrite range_nonnil in C by discriminate. cbn [sequencep negb] in C. cbn [seq_length] in C.
      assert (0 <= zlen bs) by (unfold zlen; lia).
      destruct (match a with ANone => Some 0 | AFix z => if intp z then if z <? 0 then None else Some z else None | AOther => None end);
        [|discriminate]. destruct b as [|q|]; [injection C as _ <-; lia| |discriminate].
      destruct (intp q); [|discriminate]. destruct (q <? 0) eqn:Ez.
      - cbv zeta in C. destruct (0 <=? zlen bs + q) eqn:E2; [|discriminate]. injection C as _ <-. lia.
      - destruct (zlen bs <? q); [discriminate|]. injection C as _ <-. lia. }
    rewrite E1. cbn [negb andb]. right. eexists _, _. split; [reflexivity|]. split; [reflexivity|].
    unfold sub. rewrite !firstn_length, !skipn_length. lia.
  - intros key a b. unfold position_prim. rewrite <- R. destruct (check_range x a b) as [[s e]|]; [|reflexivity].
    unfold kno_position, x, x'. cbn [seq_length]. now rewrite <- Z0.
  - intros key a b. unfold rposition_prim. rewrite <- R. destruct (check_range x a b) as [[s e]|]; reflexivity.
  - intros key a b. unfold search_prim. rewrite <- R. destruct (check_range x a b) as [[s e]|]; [|reflexivity].
    unfold kno_search, x, x'. destruct (e <=? s); [reflexivity|]. destruct key as [| | | | | | | |[|]| | | | |]; reflexivity.
  - intros y a b. unfold search_prim. destruct (check_range y a b) as [[s e]|]; [|reflexivity].
    unfold kno_search, x, x'. destruct (e <=? s); [reflexivity|]. destruct y as [| | | | | | | |[|]| | | | |]; reflexivity.
  - unfold kno_reverse. rewrite <- E. reflexivity.
  - intros pre post.
    assert (G : forall p t, append_loop t (p ++ x :: post) = append_loop t (p ++ x' :: post)).
    { induction p as [|y p IH]; intro t; cbn [app append_loop].
      - rewrite <- E. reflexivity.
      - destruct (seq_elts y); [|reflexivity]. now rewrite IH. }
    destruct pre as [|y pre]; unfold kno_append; cbn [app].
    + specialize (G [] TSecret). cbn [app] in G. unfold x, x' in *. cbn [stypeof]. now rewrite G.
    + specialize (G (y :: pre)). cbn [app] in G. now rewrite G.
  - intros item. right. exists bs, bs'. now repeat split.
Qed.
Example C57_secret_case : slice_prim (LPacket true [1; 2; 3]%N) (AFix 1) ANone = SOk (LPacket true [2; 3]%N) /\
  seq_elt (LPacket true [1; 2; 3]%N) 0 = SErr.
Proof. split; reflexivity. Qed.
Print Assumptions C57_secret_partial.

(** C57, refuted: [rest] of a secret is a plain packet with its bytes, and so is a slice
    without an end. *)
Theorem C57_rest_refuted : exists bs, rest_prim (LPacket true (7%N :: bs)) = SOk (LPacket false bs) /\ bs <> [] /\
  kno_slice (LPacket true bs) 0 (-1) = SOk (LPacket false bs).
Proof. exists [1; 2]%N. now repeat split. Qed.
Print Assumptions C57_rest_refuted.

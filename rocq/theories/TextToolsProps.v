(** Properties of gathering, replacing and slicing texts: C108, C109, C110. *)
From Coq Require Import List Bool Arith NArith ZArith Relations Lia ZifyBool ZifyN ZifyNat.
From Coq Require Import String Ascii.
From Verif Require Import TextMatchModel TextMatchSpec TextMatchProofs TextMatchProps.
From Verif Require Import TextToolsModel TextToolsSpec TextToolsProofs.
Import ListNotations.
Open Scope nat_scope.

(** C108. text/gather/list gives, in order, the parts of the text which match the
    pattern: always the leftmost one not yet passed, as long as possible, and
    without the empty ones.

    Part proved: for the whole text and the patterns of [good] and [findable].
    Missing: limits before the end of the text and other patterns (see C105 and
    C106). *)
Theorem C108_gather_list_partial :
  forall (t : list N) (lower : N -> N) (env : N -> option pat) (p : pat),
  good t lower false p -> findable false p ->
  exists f0, forall f, f0 <= f -> forall off, off <= List.length t ->
  exists ps, found t lower p off ps /\
    text_gather_list t lower env f p off (List.length t) =
    Some (map (fun ab => span t (fst ab) (snd ab)) (nonempty ps)).
Proof.
  intros t lower env p Hg Hf. destruct (claim_good t lower env p false Hg) as (f0 & H).
  exists (f0 + List.length t + 1). intros f Hff off Ho.
  destruct (H f ltac:(lia)) as [HM HS]. specialize (HS Hf).
  destruct (gather_ok t lower env p f HM HS f off Ho ltac:(lia)) as (ps & E & Hp).
  exists ps. split; [exact Hp|]. unfold text_gather_list. rewrite E. reflexivity.
Qed.

Print Assumptions C108_gather_list_partial.

Example C108_gather_list_case :
  good (txt "a1 b22 c") low false (PClassPlus digit) /\
  findable false (PClassPlus digit) /\
  text_gather_list (txt "a1 b22 c") low noenv 30 (PClassPlus digit) 0 8 =
    Some [txt "1"; txt "22"] .
Proof. repeat split; reflexivity. Qed.

(** C108: those matches are determined by the text and the pattern. *)
Theorem C108_found_unique : forall t lower p i l l',
  found t lower p i l -> found t lower p i l' -> l = l'.
Proof. intros t lower p i l l' H H'. exact (found_unique t lower p i l H l' H'). Qed.

Print Assumptions C108_found_unique.

(** C108. text/subst with a string gives the text with just those parts replaced
    by the string.

    Part proved: for the whole text and the patterns of [good] and [findable].
    With a limit before the end it is false, see below. *)
Theorem C108_subst_partial :
  forall (t : list N) (lower : N -> N) (env : N -> option pat) (p : pat) (rep : list N),
  good t lower false p -> findable false p ->
  exists f0, forall f, f0 <= f -> forall off, off <= List.length t ->
  exists ps, found t lower p off ps /\
    text_subst t lower env f p rep off (List.length t) =
    Some (replaced t rep off (nonempty ps)).
Proof.
  intros t lower env p rep Hg Hf. destruct (claim_good t lower env p false Hg) as (f0 & H).
  exists (f0 + List.length t + 1). intros f Hff off Ho.
  destruct (H f ltac:(lia)) as [HM HS]. specialize (HS Hf).
  destruct (subst_ok t lower env p f HM HS rep f off off Ho ltac:(lia)) as (ps & E & Hp).
  exists ps. split; [exact Hp|]. unfold text_subst.
  destruct (List.length t =? off) eqn:C.
  - apply Nat.eqb_eq in C. subst off.
    inversion Hp as [|i s e l (Hr & _) Hs]; subst; [|lia].
    cbn. rewrite span_nil. reflexivity.
  - pose proof (round t lower env p f HM HS off Ho) as R.
    destruct R as [(Es & Hn) | [(Es & _) | (s & e & x & l & Es & _)]]; rewrite Es in *.
    + destruct f; [lia|]. rewrite <- E. cbn [subst_loop]. rewrite span_end. reflexivity.
    + exact E.
    + exact E.
Qed.

Print Assumptions C108_subst_partial.

Example C108_subst_case :
  text_subst (txt "a1 b22 c") low noenv 30 (PClassPlus digit) (txt "<N>") 0 8 =
  Some (txt "a<N> b<N> c").
Proof. reflexivity. Qed.

(** With a limit text/subst gives, if there is a match, everything after the
    last one up to the end of the text (texttools.c:1421), and if there is
    none only what is before the limit. *)
Theorem C108_subst_limit_refuted : exists t p rep lim,
  lim < List.length t /\
  (forall f, 4 <= f -> text_subst t low noenv f p rep 0 lim = Some t) /\
  (forall f, 4 <= f -> text_subst t low noenv f (PS "z") rep 0 lim = Some (span t 0 lim)).
Proof.
  exists (txt "abcdef"), (PS "b"), (txt "b"), 3. split; [cbn; lia|].
  split; intros [|[|[|[|f]]]] H; try lia; reflexivity.
Qed.

Print Assumptions C108_subst_limit_refuted.

(** C109. text/slice with the separators kept: the pieces put together are the
    text.

    Part proved: for the whole text and separators of [good] and [findable]. *)
Theorem C109_slice_keeps_partial :
  forall (t : list N) (lower : N -> N) (env : N -> option pat) (p : pat) (keep : Z),
  good t lower false p -> findable false p -> keep <> 0%Z ->
  exists f0, forall f, f0 <= f -> forall off, off <= List.length t ->
  exists l, text_slice t lower env f p keep off (List.length t) = Some l /\
    List.concat l = span t off (List.length t).
Proof.
  intros t lower env p keep Hg Hf Hk. destruct (claim_good t lower env p false Hg) as (f0 & H).
  exists (f0 + List.length t + 1). intros f Hff off Ho.
  destruct (H f ltac:(lia)) as [HM HS]. specialize (HS Hf).
  destruct (slice_ok t lower env p f HM HS keep f off off Ho ltac:(lia)) as (ps & E & Hp).
  eexists. split; [exact E|]. exact (slices_keep t lower env keep p off ps Hk Hp off (le_n _) Ho).
Qed.

Print Assumptions C109_slice_keeps_partial.

Example C109_slice_keeps_case :
  text_slice (txt "a, b,c") low noenv 40 (PS ",") 1 0 6 =
    Some [txt "a,"; txt " b,"; txt "c"] /\
  text_slice (txt "a, b,c") low noenv 40 (PS ",") (-1) 0 6 =
    Some [txt "a"; txt ", b"; txt ",c"] /\
  text_slice (txt "a, b,c") low noenv 40 (PS ",") 2 0 6 =
    Some [txt "a"; txt ","; txt " b"; txt ","; txt "c"].
Proof. repeat split; reflexivity. Qed.

(** C109. text/slice with the separators left out: the pieces are what lies
    between the separators, in order; the last one only if it is not empty.

    Part proved: as above. *)
Theorem C109_slice_between_partial :
  forall (t : list N) (lower : N -> N) (env : N -> option pat) (p : pat),
  good t lower false p -> findable false p ->
  exists f0, forall f, f0 <= f -> forall off, off <= List.length t ->
  exists ps, found t lower p off ps /\
    text_slice t lower env f p 0 off (List.length t) = Some (between t off ps).
Proof.
  intros t lower env p Hg Hf. destruct (claim_good t lower env p false Hg) as (f0 & H).
  exists (f0 + List.length t + 1). intros f Hff off Ho.
  destruct (H f ltac:(lia)) as [HM HS]. specialize (HS Hf).
  destruct (slice_ok t lower env p f HM HS 0%Z f off off Ho ltac:(lia)) as (ps & E & Hp).
  exists ps. split; [exact Hp|]. rewrite <- slices_between. exact E.
Qed.

Print Assumptions C109_slice_between_partial.

Example C109_slice_between_case :
  text_slice (txt "a, b,,c") low noenv 40 (PS ",") 0 0 7 =
    Some [txt "a"; txt " b"; txt ""; txt "c"].
Proof. reflexivity. Qed.

(** The documentation says separators are left out by default; the default of the
    argument is #t (texttools.c:1947, 1955), which keeps them with the piece
    before. *)
Theorem C109_slice_default_refuted : exists t p,
  forall f, 10 <= f ->
  text_slice t low noenv f p (interpret_keep keep_default) 0 (List.length t) <>
  text_slice t low noenv f p (interpret_keep KFalse) 0 (List.length t).
Proof.
  exists (txt "a,b"), (PS ","). intros f H.
  do 10 (destruct f as [|f]; [lia|]). vm_compute. discriminate.
Qed.

Print Assumptions C109_slice_default_refuted.

(** C110. string-contains?, string-starts-with? and string-ends-with? say whether
    there is a part of the text which matches the pattern, begins at the
    position given, ends at the end.

    Part proved: for the whole text and the patterns of [good] and (not for
    string-starts-with?) [findable]; empty matches at the end of the text
    may or may not be found by the first and the last. *)
Theorem C110_string_contains_partial :
  forall (t : list N) (lower : N -> N) (env : N -> option pat) (p : pat),
  good t lower false p -> findable false p ->
  exists f0, forall f, f0 <= f -> forall off, off <= List.length t ->
  exists r, string_contains t lower env f p off (List.length t) = Some r /\
    (r = true -> exists k j, off <= k <= List.length t /\ ends t lower false p k j) /\
    (r = false -> forall k j, off <= k < List.length t -> ~ ends t lower false p k j).
Proof.
  intros t lower env p Hg Hf. destruct (claim_good t lower env p false Hg) as (f0 & H).
  exists f0. intros f Hff off Ho. pose proof (proj2 (H f Hff) Hf off Ho) as Hs.
  unfold sres_ok in Hs. unfold string_contains. change flags0 with (Flags false false).
  destruct (tsearch t lower env f p off (List.length t) (Flags false false)); try contradiction.
  - exists true. split; [reflexivity|]. split; [|discriminate]. intros _.
    destruct Hs as (H1 & _ & (j & Hj) & _). eauto.
  - exists false. split; [reflexivity|]. split; [discriminate|]. auto.
Qed.

Print Assumptions C110_string_contains_partial.

Theorem C110_string_starts_with_partial :
  forall (t : list N) (lower : N -> N) (env : N -> option pat) (p : pat),
  good t lower false p ->
  exists f0, forall f, f0 <= f -> forall off, off <= List.length t ->
  exists r, string_starts_with t lower env f p off (List.length t) = Some r /\
    (r = true <-> exists j, ends t lower false p off j).
Proof.
  intros t lower env p Hg. destruct (claim_good t lower env p false Hg) as (f0 & H).
  exists f0. intros f Hff off Ho. destruct (proj1 (H f Hff) None off Ho) as (l & E & I).
  unfold string_starts_with. change flags0 with (Flags false false). rewrite E.
  destruct l as [|x l].
  - exists false. split; [reflexivity|]. split; [discriminate|]. intros (j & Hj). apply I in Hj. destruct Hj.
  - exists true. split; [reflexivity|]. split; [|auto]. intros _. exists x. apply I. cbn; auto.
Qed.

Print Assumptions C110_string_starts_with_partial.

Theorem C110_string_ends_with_partial :
  forall (t : list N) (lower : N -> N) (env : N -> option pat) (p : pat),
  good t lower false p -> findable false p ->
  exists f0, forall f, f0 <= f -> forall off, off <= List.length t ->
  exists r, string_ends_with t lower env f p off (List.length t) = Some r /\
    (r = true -> exists k, off <= k <= List.length t /\ ends t lower false p k (List.length t)) /\
    (r = false -> forall k, off <= k < List.length t -> ~ ends t lower false p k (List.length t)).
Proof.
  intros t lower env p Hg Hf. destruct (claim_good t lower env p false Hg) as (f0 & H).
  exists (f0 + List.length t + 2). intros f Hff off Ho.
  destruct (H f ltac:(lia)) as [HM HS]. specialize (HS Hf).
  exact (ends_ok t lower env p f HM HS f off Ho ltac:(lia)).
Qed.

Print Assumptions C110_string_ends_with_partial.

Example C110_string_tests_case :
  let t := txt "file-12.txt" in
  let p := PVec [PClassPlus digit; PS ".txt"] in
  good t low false p /\ findable false p /\
  string_contains t low noenv 40 p 0 11 = Some true /\
  string_starts_with t low noenv 40 p 0 11 = Some false /\
  string_starts_with t low noenv 40 p 6 11 = Some true /\
  string_ends_with t low noenv 40 p 0 11 = Some true /\
  string_ends_with t low noenv 40 (PS ".tx") 0 11 = Some false.
Proof. repeat split; reflexivity. Qed.

(** No text ends with the empty string as far as string-ends-with? is
    concerned. *)
Theorem C110_ends_with_empty_refuted : exists t,
  (forall f, 10 <= f -> string_ends_with t low noenv f (PStr []) 0 (List.length t) = Some false) /\
  ends t low false (PStr []) (List.length t) (List.length t).
Proof.
  exists (txt "ab"). split.
  - intros f H. do 10 (destruct f as [|f]; [lia|]). reflexivity.
  - cbn. split; [lia|]. split; [reflexivity|]. intros [|k] c H; discriminate.
Qed.

Print Assumptions C110_ends_with_empty_refuted.

(** lastword with a string as separator does not end when the separator is in the
    text: it searches again from where it found it (texttools.c:2140-2142). *)
Theorem C110_lastword_loops_refuted : forall t sep b scan e k,
  k <= List.length t -> scan <= k -> prefix_at t sep k = true ->
  lastword_loop t b sep scan e = None.
Proof.
  intros t sep b. induction b as [|b IH]; intros scan e k Hk Hs Hp; [reflexivity|].
  cbn [lastword_loop].
  pose proof (first_at_spec (prefix_at t sep) (S (len t) - scan) scan) as F.
  destruct (first_at (prefix_at t sep) scan (S (len t) - scan)) as [k'|].
  - destruct F as (F1 & F2 & _). unfold len in F1. apply (IH k' _ k'); [lia | lia | exact F2].
  - rewrite (F k) in Hp; [discriminate|]. unfold len. lia.
Qed.

Print Assumptions C110_lastword_loops_refuted.

Example C110_lastword_case : prefix_at (txt "a b") (txt " ") 1 = true.
Proof. reflexivity. Qed.

(** Properties of text matching and searching: C105, C106, C107. *)
From Coq Require Import List Bool Arith NArith Relations Lia ZArith ZifyBool ZifyN ZifyNat.
From Coq Require Import String Ascii.
From Verif Require Import TextMatchModel TextMatchSpec TextMatchProofs.
From Verif Require Import TextToolsSpec TextToolsProofs.
Import ListNotations.
Open Scope nat_scope.

(** For the examples: the characters of a string, ASCII lower case, no symbols
    bound. *)
Definition txt (s : string) : list N := map N_of_ascii (list_ascii_of_string s).
Definition low (c : N) : N := if ((65 <=? c) && (c <=? 90))%N then (c + 32)%N else c.
Definition noenv (_ : N) : option pat := None.
Definition digit (c : N) : bool := ((48 <=? c) && (c <=? 57))%N.
Definition alpha (c : N) : bool :=
  (((65 <=? c) && (c <=? 90)) || ((97 <=? c) && (c <=? 122)))%N.
Definition PS (s : string) : pat := PStr (txt s).
Definition PC (s : string) : pat := PChr (hd 0%N (txt s)).

(** C105. Matching a pattern at a position answers, and the ends it gives are
    exactly the ends of the parts of the text that begin there and match the
    pattern.

    Part proved: for the whole text (the limit is its end), without greedy
    matching, and for the patterns of [good] (TextMatchSpec); case is ignored or
    not.  Missing: symbols, GREEDY, the wildcard; a limit before the end of the
    text, [+] of something that can be empty, CHAR-RANGE when case is ignored
    and NOT of patterns for which the search goes wrong: for those it is false,
    see below. OPT means what the code does with it (nothing only if the pattern
    does not match); as its documentation has it this is refuted below. *)
Theorem C105_text_matcher_partial :
  forall (t : list N) (lower : N -> N) (env : N -> option pat) (ic : bool) (p : pat),
  good t lower ic p ->
  exists f0, forall f, f0 <= f -> forall off, off <= List.length t ->
  exists l, text_matcher t lower env f p off (List.length t) (Flags ic false) = MOk l /\
    forall j, In j l <-> ends t lower ic p off j.
Proof.
  intros t lower env ic p Hg. destruct (claim_good t lower env p ic Hg) as (f0 & H).
  exists f0. intros f Hf off Ho. exact (proj1 (H f Hf) None off Ho).
Qed.

Print Assumptions C105_text_matcher_partial.

Definition word_then_number : pat :=
  PVec [PPlus (PClass alpha); POpt (PS "-"); PAlt [PClassPlus digit; PS "x"]].

Example C105_text_matcher_case :
  good (txt "ab-123") low false word_then_number /\
  text_matcher (txt "ab-123") low noenv 20 word_then_number 0 6 flags0 = MOk [4; 5; 6] /\
  ends (txt "ab-123") low false word_then_number 0 5.
Proof.
  assert (G : good (txt "ab-123") low false word_then_number).
  { cbn. repeat split. intros i (c & _ & _ & H). lia. }
  split; [exact G|]. split; [reflexivity|].
  cbn. exists 2. split.
  - apply t_trans with 1; apply t_step; eexists; (split; [reflexivity|]); split; reflexivity.
  - exists 3. split.
    + left. split; [lia|]. split; [reflexivity|]. intros [|k] c H; [|destruct k; discriminate].
      injection H as <-. eexists. split; reflexivity.
    + exists 5. split; [|reflexivity]. left. split; [lia|]. intros k Hk.
      assert (k = 3 \/ k = 4) as [-> | ->] by lia; eexists; split; reflexivity.
Qed.

(** C105, for text/match?: the whole text matches exactly if one of the parts
    from the position to the end does. *)
Theorem C105_text_match_partial :
  forall (t : list N) (lower : N -> N) (env : N -> option pat) (ic : bool) (p : pat),
  good t lower ic p ->
  exists f0, forall f, f0 <= f -> forall off, off <= List.length t ->
  exists r, text_match t lower env f p off (List.length t) (Flags ic false) = Some r /\
    (r = true <-> ends t lower ic p off (List.length t)).
Proof.
  intros t lower env ic p Hg. destruct (C105_text_matcher_partial t lower env ic p Hg) as (f0 & H).
  exists f0. intros f Hf off Ho. destruct (H f Hf off Ho) as (l & E & I).
  unfold text_match. rewrite E. eexists. split; [reflexivity|]. rewrite inb_in. apply I.
Qed.

Print Assumptions C105_text_match_partial.

Example C105_text_match_case :
  text_match (txt "ab-123") low noenv 20 word_then_number 0 6 flags0 = Some true /\
  text_match (txt "ab-123?") low noenv 20 word_then_number 0 7 flags0 = Some false.
Proof. split; reflexivity. Qed.

(** Strings, classes, runs and ranges are matched past the limit (match.c:314,
    2483-2500): "abc" limited to its first two characters has a match of "bc"
    at 1 which ends at 3. *)
Theorem C105_past_limit_refuted : exists t p off lim l j,
  lim <= List.length t /\
  text_matcher t low noenv 20 p off lim flags0 = MOk l /\ In j l /\ lim < j.
Proof.
  exists (txt "abc"), (PS "bc"), 1, 2, [3], 3. repeat split; cbn; auto; lia.
Qed.

Print Assumptions C105_past_limit_refuted.

Theorem C105_class_past_limit_refuted : exists t p off lim l j,
  lim <= List.length t /\
  text_matcher t low noenv 20 p off lim flags0 = MOk l /\ In j l /\ lim < j.
Proof.
  exists (txt "1234"), (PClassPlus digit), 0, 2, [1; 2; 3; 4], 4.
  repeat split; cbn; auto 6; lia.
Qed.

Print Assumptions C105_class_past_limit_refuted.

(** [(+ (opt "a"))] does not match the empty part, which is one repetition
    (match.c:799-813). *)
Theorem C105_plus_empty_refuted : exists t p off,
  (forall f, 3 <= f -> text_matcher t low noenv f p off (List.length t) flags0 = MOk []) /\
  ends t low false p off off.
Proof.
  exists (txt "b"), (PPlus (POpt (PS "a"))), 0. split.
  - intros [|[|[|f]]] H; try lia. reflexivity.
  - cbn. apply t_step. right. split; [reflexivity|]. intros k (_ & _ & H).
    destruct (H 0 97%N eq_refl) as (d & Hd & E). injection Hd as <-. discriminate.
Qed.

Print Assumptions C105_plus_empty_refuted.

(** (OPT p) is "p or nothing" only where p does not match at all: the sequence of
    (OPT "a") and "ab" does not match "ab" (match.c:968-977). *)
Theorem C105_opt_or_nothing_refuted : exists t p q,
  (forall f, 4 <= f ->
     text_matcher t low noenv f (PVec [POpt p; q]) 0 (List.length t) flags0 = MOk []) /\
  ends t low false q 0 (List.length t).
Proof.
  exists (txt "ab"), (PS "a"), (PS "ab"). split.
  - intros [|[|[|[|f]]]] H; try lia. reflexivity.
  - cbn. split; [lia|]. split; [reflexivity|]. intros [|[|k]] c H; cbn in H.
    + injection H as <-. exists 97%N. split; reflexivity.
    + injection H as <-. exists 98%N. split; reflexivity.
    + destruct k; discriminate.
Qed.

Print Assumptions C105_opt_or_nothing_refuted.

(** CHAR-RANGE when case is ignored compares the lower case of its end with
    itself (match.c:2118-2120): the range from "a" to "z" matches "?". *)
Theorem C105_char_range_refuted : exists t p off l,
  (forall f, 2 <= f -> text_matcher t low noenv f p off (List.length t) (Flags true false) = MOk l) /\
  l <> [] /\ forall j, ~ ends t low true p off j.
Proof.
  exists (txt "?"), (PRange 97 122), 0, [1]. split; [|split].
  - intros [|[|f]] H; try lia. reflexivity.
  - discriminate.
  - intros j (c & Hc & Hr & _). injection Hc as <-. lia.
Qed.

Print Assumptions C105_char_range_refuted.

(** A character in a pattern is compared exactly even when case is ignored
    (match.c:458-466), unlike the string of that character. *)
Theorem C105_ignore_case_char_refuted : exists t c,
  (forall f, 2 <= f ->
     text_matcher t low noenv f (PIgnoreCase (PChr c)) 0 (List.length t) flags0 = MOk []) /\
  (forall f, 2 <= f ->
     text_matcher t low noenv f (PIgnoreCase (PStr [c])) 0 (List.length t) flags0 = MOk [1]).
Proof.
  exists (txt "A"), 97%N. split; intros [|[|f]] H; try lia; reflexivity.
Qed.

Print Assumptions C105_ignore_case_char_refuted.

(** CHARS and CHAR-NOT, which are to match at least one character, match the
    empty part at the end of the text (match.c:2126-2223). *)
Theorem C105_chars_at_end_refuted : exists t s,
  forall f, 2 <= f ->
  text_matcher t low noenv f (PChars false false s) (List.length t) (List.length t) flags0 =
  MOk [List.length t].
Proof.
  exists (txt "ab"), (txt "xyz"). intros [|[|f]] H; try lia; reflexivity.
Qed.

Print Assumptions C105_chars_at_end_refuted.

(** Matching does not answer when a symbol stands for itself (match.c:467-471
    calls itself without end). *)
Theorem C105_symbol_loop_refuted : exists t env p,
  forall f off, text_matcher t low env f p off (List.length t) flags0 = MFuel \/
    List.length t < off.
Proof.
  exists (txt "a"), (fun _ => Some (PSym 0)), (PSym 0). intros f off.
  destruct (Nat.lt_ge_cases (List.length (txt "a")) off) as [H | H]; [right; exact H | left].
  unfold text_matcher. generalize (@None pat). induction f as [|f IH]; intro nx; [reflexivity|].
  rewrite dm_S. unfold match_step. replace (List.length (txt "a") <? off) with false
    by (symmetry; apply Nat.ltb_ge, H). apply IH.
Qed.

Print Assumptions C105_symbol_loop_refuted.

(** NOT of a character never stops at it: the search for the character finds
    nothing (see C106). *)
Theorem C105_not_char_refuted : exists t p l j,
  (forall f, 3 <= f -> text_matcher t low noenv f p 0 (List.length t) flags0 = MOk l) /\
  In j l /\ ~ ends t low false p 0 j.
Proof.
  exists (txt "xay"), (PNot (PC "a")), [1; 2; 3], 3. split; [|split].
  - intros [|[|[|f]]] H; try lia. reflexivity.
  - cbn. auto.
  - cbn. intros [[_ H] | [H _]]; [|lia]. apply (H 1 2); [lia|]. split; reflexivity.
Qed.

Print Assumptions C105_not_char_refuted.

(** C106. Searching for a pattern answers, and gives the first position from the
    starting one on at which the pattern matches, or says there is none.

    Part proved: for the whole text, without greedy matching, for the patterns
    of [good] and [findable] (TextMatchSpec); an empty match at the very end of
    the text need not be found.  For the rest it is false, see below. *)
Theorem C106_text_search_partial :
  forall (t : list N) (lower : N -> N) (env : N -> option pat) (ic : bool) (p : pat),
  good t lower ic p -> findable ic p ->
  exists f0, forall f, f0 <= f -> forall off, off <= List.length t ->
  match tsearch t lower env f p off (List.length t) (Flags ic false) with
  | SAt k => first_match t lower ic p off k
  | SNone => forall k j, off <= k < List.length t -> ~ ends t lower ic p k j
  | _ => False
  end.
Proof.
  intros t lower env ic p Hg Hf. destruct (claim_good t lower env p ic Hg) as (f0 & H).
  exists f0. intros f Hff off Ho. pose proof (proj2 (H f Hff) Hf off Ho) as Hs.
  unfold sres_ok in Hs. destruct (tsearch t lower env f p off (List.length t) (Flags ic false)); auto.
  destruct Hs as (H1 & _ & H2 & H3). split; auto.
Qed.

Print Assumptions C106_text_search_partial.

Definition key_value : pat := PVec [PClassPlus alpha; PS "="; PClassPlus digit].

Example C106_text_search_case :
  good (txt "a b=x cd=42") low false key_value /\ findable false key_value /\
  tsearch (txt "a b=x cd=42") low noenv 30 key_value 0 11 flags0 = SAt 6 /\
  tsearch (txt "a b=x cd=42") low noenv 30 key_value 8 11 flags0 = SNone.
Proof. repeat split; reflexivity. Qed.

(** The search for an ASCII character looks for the character at the limit
    (match.c:3984-3985): it never finds anything in a whole text. *)
Theorem C106_search_char_refuted : exists t p,
  (forall f, 1 <= f -> tsearch t low noenv f p 0 (List.length t) flags0 = SNone) /\
  ends t low false p 1 2.
Proof.
  exists (txt "xay"), (PC "a"). split.
  - intros [|f] H; [lia|]. reflexivity.
  - split; reflexivity.
Qed.

Print Assumptions C106_search_char_refuted.

(** For no ASCII character and no text. *)
Theorem C106_search_char_never_refuted : forall t lower env f c off fl,
  (c < 128)%N -> 1 <= f ->
  tsearch t lower env f (PChr c) off (List.length t) fl = SNone.
Proof.
  intros t lower env [|f] c off fl Hc Hf; [lia|]. rewrite ts_S. unfold search_step.
  destruct (List.length t <? off); [reflexivity|]. apply N.ltb_lt in Hc. rewrite Hc.
  unfold len. rewrite Nat.ltb_irrefl. reflexivity.
Qed.

Print Assumptions C106_search_char_never_refuted.

(** When case is ignored the search for a string goes wrong when the first
    character comes twice: "ab" is not found in "aab" (match.c:3900-3923). *)
Theorem C106_search_ignore_case_refuted : exists t p,
  (forall f, 1 <= f -> tsearch t low noenv f p 0 (List.length t) (Flags true false) = SNone) /\
  ends t low true p 1 3.
Proof.
  exists (txt "aab"), (PS "ab"). split.
  - intros [|f] H; [lia|]. reflexivity.
  - cbn. split; [lia|]. split; [reflexivity|]. intros [|[|k]] c H; cbn in H.
    + injection H as <-. eexists. split; reflexivity.
    + injection H as <-. eexists. split; reflexivity.
    + destruct k; discriminate.
Qed.

Print Assumptions C106_search_ignore_case_refuted.

(** The search for (NOT p) gives a place where (NOT p) does not match: the end of
    a match of p (match.c:1026-1044). *)
Theorem C106_search_not_refuted : exists t p k,
  (forall f, 3 <= f -> tsearch t low noenv f p 0 (List.length t) flags0 = SAt k) /\
  (forall f, 3 <= f -> text_matcher t low noenv f p k (List.length t) flags0 = MOk []) /\
  forall j, ~ ends t low false p k j.
Proof.
  exists (txt "aab"), (PNot (PS "a")), 1. split; [|split].
  - intros [|[|[|f]]] H; try lia. reflexivity.
  - intros [|[|[|f]]] H; try lia. reflexivity.
  - intros j [[H1 H2] | [H1 _]]; [|discriminate]. apply (H2 1 2); [lia|].
    split; [cbn; lia|]. split; [reflexivity|]. intros [|k] c H; [|destruct k; discriminate].
    injection H as <-. exists 97%N. split; reflexivity.
Qed.

Print Assumptions C106_search_not_refuted.

(** The search for the beginning of a line takes the newline over an earlier
    carriage return (match.c:1930-1943). *)
Theorem C106_search_bol_refuted : exists t k k',
  (forall f, 1 <= f -> tsearch t low noenv f PBol 1 (List.length t) flags0 = SAt k) /\
  1 <= k' < k /\ ends t low false PBol k' k'.
Proof.
  exists [97; 13; 98; 10; 99]%N, 4, 2. split; [|split].
  - intros [|f] H; [lia|]. reflexivity.
  - lia.
  - cbn. split; [reflexivity|]. split; [lia|]. right. eexists. split; [reflexivity|]. auto.
Qed.

Print Assumptions C106_search_bol_refuted.

(** The search for the end of a line or of the text gives a place after the limit
    when it starts at the limit (match.c:1957-1970, 2074-2084). *)
Theorem C106_search_end_refuted : exists t k,
  (forall f, 1 <= f -> tsearch t low noenv f PEos (List.length t) (List.length t) flags0 = SAt k) /\
  (forall f, 1 <= f -> tsearch t low noenv f PEol (List.length t) (List.length t) flags0 = SAt k) /\
  List.length t < k /\ ends t low false PEos (List.length t) (List.length t).
Proof.
  exists (txt "ab"), 3. split; [|split; [|split]].
  - intros [|f] H; [lia|]. reflexivity.
  - intros [|f] H; [lia|]. reflexivity.
  - cbn. lia.
  - split; reflexivity.
Qed.

Print Assumptions C106_search_end_refuted.

(** The search for (AND ( * "a") "b") in "x" does not end: at the end of the text
    it goes on at the same place (match.c:1077-1095). *)
Theorem C106_search_and_loops_refuted : exists t p,
  good t low false p /\
  forall f off, off <= List.length t ->
  tsearch t low noenv f p off (List.length t) flags0 = SFuel.
Proof.
  exists (txt "x"), (PAnd (PStar (PS "a")) (PS "b")). split; [cbn; auto|].
  induction f as [|f IH]; intros off Ho; [reflexivity|].
  assert (Hoff : off = 0 \/ off = 1) by (cbn in Ho; lia).
  rewrite ts_S. unfold search_step.
  replace (List.length (txt "x") <? off) with false by (destruct Hoff; subst; reflexivity).
  cbn [search_op].
  destruct f as [|f]; [reflexivity|].
  assert (E : tsearch (txt "x") low noenv (S f) (PStar (PS "a")) off (List.length (txt "x")) flags0 = SAt off).
  { destruct Hoff; subst; reflexivity. }
  rewrite E. cbn [sand].
  rewrite (IH (fwd (txt "x") off)) by (destruct Hoff; subst; cbn; lia).
  assert (M : match_and (domatch (txt "x") low noenv (S f)) (PStar (PS "a")) (PS "b") None off
                (List.length (txt "x")) flags0 = MOk [] \/
              match_and (domatch (txt "x") low noenv (S f)) (PStar (PS "a")) (PS "b") None off
                (List.length (txt "x")) flags0 = MFuel).
  { destruct Hoff; subst; destruct f as [|[|f]]; vm_compute; auto. }
  destruct M as [M | M]; rewrite M; [|reflexivity]. destruct f; reflexivity.
Qed.

Print Assumptions C106_search_and_loops_refuted.

(** The search for the empty vector reads its first element, which it does not
    have (match.c:3966). *)
Theorem C106_search_empty_vector_refuted : forall t lower env f off fl,
  off <= List.length t -> 1 <= f ->
  tsearch t lower env f (PVec []) off (List.length t) fl = SBad.
Proof.
  intros t lower env [|f] off fl Ho Hf; [lia|]. rewrite ts_S. unfold search_step.
  replace (List.length t <? off) with false by (symmetry; apply Nat.ltb_ge, Ho). reflexivity.
Qed.

Print Assumptions C106_search_empty_vector_refuted.

(** C107. Greedy matching gives at most one end, and that is the end of a part of
    the text which matches the pattern.

    Part proved: for the whole text and the patterns of [plain]
    (TextToolsSpec): without symbols, wildcards, NOT, NOT> and AND (for AND it is
    false, see below). *)
Theorem C107_greedy_one_end_partial :
  forall (t : list N) (lower : N -> N) (env : N -> option pat) (ic : bool) (p : pat) f off l,
  plain ic p -> off <= List.length t ->
  text_matcher t lower env f p off (List.length t) (Flags ic true) = MOk l ->
  List.length l <= 1 /\ forall j, In j l -> off <= j <= List.length t /\ loose t lower ic p off j.
Proof.
  intros t lower env ic p f off l Hp Ho E.
  destruct (dm_sound t lower env f p ic true None off l Hp Ho E) as [H1 H2].
  split; [apply H2; reflexivity | exact H1].
Qed.

Print Assumptions C107_greedy_one_end_partial.

Example C107_greedy_one_end_case :
  plain false word_then_number /\
  text_matcher (txt "ab-123") low noenv 20 word_then_number 0 6 (Flags false true) = MOk [6].
Proof. split; [cbn; repeat split | reflexivity]. Qed.

(** C107, repetitions: after a greedy repetition the repeated pattern does not
    match any further (other than the empty part). *)
Theorem C107_greedy_repetition_partial :
  forall (t : list N) (lower : N -> N) (env : N -> option pat) (ic plus : bool) (q : pat)
         f nx off l,
  plain ic q -> off <= List.length t ->
  domatch t lower env (S f) (if plus then PPlus q else PStar q) nx off (List.length t)
    (Flags ic true) = MOk l ->
  forall j, In j l ->
  exists l', domatch t lower env f q nx j (List.length t) (Flags ic true) = MOk l' /\
    forall k, In k l' -> k = j.
Proof.
  intros t lower env ic plus q f nx off l Hp Ho E j Hj.
  exact (greedy_star_stuck t lower env plus f q ic nx off l Hp Ho E j Hj).
Qed.

Print Assumptions C107_greedy_repetition_partial.

Example C107_greedy_repetition_case :
  domatch (txt "ababac") low noenv 20 (PStar (PS "ab")) None 0 6 (Flags false true) = MOk [4] /\
  domatch (txt "ababac") low noenv 19 (PS "ab") None 4 6 (Flags false true) = MOk [].
Proof. split; reflexivity. Qed.

(** Greedy matching can fail where the pattern matches: a greedy repetition is
    not taken back. *)
Theorem C107_greedy_finds_match_refuted : exists t p,
  good t low false p /\ plain false p /\
  ends t low false p 0 (List.length t) /\
  (forall f, 6 <= f ->
     text_matcher t low noenv f p 0 (List.length t) (Flags false true) = MOk []).
Proof.
  exists (txt "aa"), (PVec [PStar (PS "a"); PS "a"]). split; [|split; [|split]].
  - cbn. auto.
  - cbn. auto.
  - assert (A : forall i, i <= 1 -> ends (txt "aa") low false (PS "a") i (S i)).
    { intros i Hi. cbn. split; [lia|]. split; [lia|]. intros [|k] c H; [|destruct k; discriminate].
      injection H as <-. assert (i = 0 \/ i = 1) as [-> | ->] by lia; exists 97%N; split; reflexivity. }
    cbn [TextMatchSpec.ends]. exists 1. split; [apply rt_step, A; lia|].
    exists 2. split; [apply A; lia | reflexivity].
  - intros [|[|[|[|[|[|f]]]]]] H; try lia. reflexivity.
Qed.

Print Assumptions C107_greedy_finds_match_refuted.

(** Greedy AND succeeds with the empty part when its patterns have no end in
    common (match.c:1057-1069). *)
Theorem C107_greedy_and_refuted : exists t p q,
  (forall f, 3 <= f ->
     text_matcher t low noenv f (PAnd p q) 0 (List.length t) (Flags false true) = MOk [0]) /\
  forall j, ~ ends t low false (PAnd p q) 0 j.
Proof.
  exists (txt "ab"), (PS "a"), (PS "ab"). split.
  - intros [|[|[|f]]] H; try lia. reflexivity.
  - intros j [(_ & H1 & _) (_ & H2 & _)]. cbn in H1, H2. lia.
Qed.

Print Assumptions C107_greedy_and_refuted.

(** The text matcher: matching and searching with text patterns.

    src/text/match.c (kno_text_domatch, match_sequence, match_repeatedly,
    kno_text_search and the match operators) and the parts of
    src/text/texttools.c built on them.

    Simplifications that hold for the whole file:
    - A text is the list of its characters and a position is a number of
      characters.  The code keeps UTF-8 bytes and byte offsets
      (match.c:116-124); every offset it uses is at a character boundary, and
      for valid UTF-8 comparing bytes is comparing characters.
    - Characters are never 0 (the code's texts end at a NUL).
    - Operators are given their arguments, so the syntax errors for missing
      arguments are left out.  What is left of errors is unbound symbols.
    - Of the flags only KNO_MATCH_IGNORE_CASE and KNO_MATCH_BE_GREEDY are
      modelled (include/kno/texttools.h:82-86).  KNO_MATCH_DO_BINDINGS is not
      set by any of the functions modelled here.
    - KNO_INTERRUPTED() is false. *)
From Coq Require Import List Bool Arith NArith Lia.
Import ListNotations.
Set Implicit Arguments.

(** Text patterns: match.c:29-53 and the table of operators 4106-4225.
    [PAlt] is a choice of patterns, [PVec] a vector, [PSym] a symbol.
    [PStarAny] is the pattern [( * )] with no argument.
    [PLabel] stands for both (LABEL x p) and (= x p): neither looks at the
    symbol when it matches or searches without bindings.
    [PClass f] and [PClassPlus f] stand for the ISALNUM, ISDIGIT, ISALPHA, ...
    operators and the ones with a + (match.c:2475-3080), whose functions differ
    only in the predicate; ISSPACE+ and SPACES, which are written differently,
    are left out.  [PChars neg star s] stands for CHARS, CHARS*, CHAR-NOT and
    CHAR-NOT*. *)
Inductive pat : Type :=
| PStr (s : list N)
| PChr (c : N)
| PAlt (l : list pat)
| PVec (l : list pat)
| PSym (x : N)
| PStar (p : pat)
| PStarAny
| PPlus (p : pat)
| POpt (p : pat)
| PNot (p : pat)
| PNotGt (p : pat)
| PAnd (p q : pat)
| PChoiceOp (l : list pat)
| PPref (l : list pat)
| PLabel (p : pat)
| PGreedy (p : pat)
| PExpansive (p : pat)
| PLongest (p : pat)
| PIgnoreCase (p : pat)
| PMatchCase (p : pat)
| PBol | PEol | PBos | PEos | PRest
| PRange (a b : N)
| PChars (neg star : bool) (s : list N)
| PClass (f : N -> bool)
| PClassPlus (f : N -> bool).

(** include/kno/texttools.h:82-86. *)
Record flags : Type := Flags { f_ic : bool; f_greedy : bool }.
Definition flags0 : flags := Flags false false.

(** What kno_text_domatch returns: a choice of end positions (a list without
    duplicates stands for it; [MOk []] is the empty choice), an error object,
    something which is neither ([MBad], not modelled any further), or no
    answer within the fuel. *)
Inductive mres : Type := MOk (l : list nat) | MErr | MBad | MFuel.

(** What kno_text_search returns: a position, -1, -2, a number which is no
    position ([SBad]), or no answer within the fuel. *)
Inductive sres : Type := SAt (k : nat) | SNone | SErr | SBad | SFuel.

(** CHOICE_ADD and kno_simplify_choice on choices of positions. *)
Definition munion (a b : list nat) : list nat := nodup Nat.eq_dec (a ++ b).

Definition inb (n : nat) (l : list nat) : bool := existsb (Nat.eqb n) l.

(** get_longest_match, match.c:376-390. *)
Definition get_longest (l : list nat) : list nat :=
  match l with
  | [] => []
  | [x] => [x]
  | _ => [list_max l]
  end.

(** The first [k], [a <= k < a+n], at which the test holds: what strstr,
    strchr and the scanning loops of the search functions compute. *)
Fixpoint first_at (test : nat -> bool) (a n : nat) : option nat :=
  match n with
  | O => None
  | S n' => if test a then Some a else first_at test (S a) n'
  end.

(** DO_CHOICES over positions, calling the matcher at each and collecting the
    results: the inner loops of match_sequence (match.c:516-523) and
    match_repeatedly (784-802).  The first error is returned. *)
Fixpoint mall (f : nat -> mres) (st : list nat) : mres :=
  match st with
  | [] => MOk []
  | i :: r =>
    match f i with
    | MOk a =>
      match mall f r with
      | MOk b => MOk (munion a b)
      | o => o
      end
    | o => o
    end
  end.

(** match_sequence, match.c:506-533.  [dm e nx i] matches the element [e],
    followed by [nx], at [i]. *)
Fixpoint mseq (dm : pat -> option pat -> nat -> mres)
         (l : list pat) (nx : option pat) (st : list nat) : mres :=
  match l with
  | [] => MOk st
  | e :: r =>
    match mall (dm e (match r with [] => nx | q :: _ => Some q end)) st with
    | MOk [] => MOk []
    | MOk s => mseq dm r nx s
    | o => o
    end
  end.

(** match_repeatedly, match.c:773-827: the loop.  [mp] is match_points, [first]
    is count==0; [budget] bounds the rounds of while (1). *)
Fixpoint mrep (f : nat -> mres) (greedy zero_ok : bool) (budget : nat)
         (first : bool) (mp st : list nat) : mres :=
  match budget with
  | O => MFuel
  | S b =>
    match mall f st with
    | MOk l =>
      let next := filter (fun n => negb (inb n st)) l in
      match next with
      | [] =>
        if greedy then MOk mp
        else if first then (if zero_ok then MOk st else MOk [])
        else MOk mp
      | _ =>
        if greedy then mrep f greedy zero_ok b false next next
        else mrep f greedy zero_ok b false (munion mp next) next
      end
    | o => o
    end
  end.

Definition match_repeatedly (f : nat -> mres) (greedy zero_ok : bool)
           (budget off : nat) : mres :=
  mrep f greedy zero_ok budget true (if zero_ok then [off] else []) [off].

(** The loop over a choice of patterns, match.c:414-457: the largest end when
    greedy, all the ends otherwise. *)
Fixpoint malt (f : pat -> mres) (l : list pat) : mres :=
  match l with
  | [] => MOk []
  | p :: r =>
    match f p with
    | MOk a =>
      match malt f r with
      | MOk b => MOk (munion a b)
      | o => o
      end
    | o => o
    end
  end.

(** match_pref, match.c:1309-1319. *)
Fixpoint mpref (f : pat -> mres) (l : list pat) : mres :=
  match l with
  | [] => MOk []
  | p :: r =>
    match f p with
    | MOk [] => mpref f r
    | o => o
    end
  end.

(** The loop of match_not over the positions from [i] up to [last],
    match.c:1012-1020. *)
Fixpoint not_ends (n i last : nat) : list nat :=
  match n with
  | O => [i]
  | S n' => if i <? last then i :: not_ends n' (S i) last else [i]
  end.

(** search over a choice of patterns, match.c:3998-4008. *)
Fixpoint salt (f : pat -> sres) (l : list pat) (nlim : nat) (loc : option nat)
  : sres :=
  match l with
  | [] => match loc with Some k => SAt k | None => SNone end
  | p :: r =>
    match f p with
    | SAt k => if k <? nlim then salt f r k (Some k) else salt f r nlim loc
    | SNone => salt f r nlim loc
    | o => o
    end
  end.

(** search_pref, match.c:1333-1347: each search is bounded by the result of
    the ones before. *)
Fixpoint spref (f : pat -> nat -> sres) (l : list pat) (nlim : nat)
         (loc : option nat) : sres :=
  match l with
  | [] => match loc with Some k => SAt k | None => SNone end
  | p :: r =>
    match f p nlim with
    | SAt k => if k <? nlim then spref f r k (Some k) else spref f r nlim loc
    | SNone => spref f r nlim loc
    | o => o
    end
  end.

(** The loop which searches for a vector, match.c:3968-3982: search for the
    first element ([s]), then match the whole ([m]). *)
Fixpoint svec (s : nat -> sres) (m : nat -> mres) (fwd : nat -> nat) (lim : nat)
         (budget : nat) (r : sres) : sres :=
  match budget with
  | O => SFuel
  | S b =>
    match r with
    | SAt k =>
      if k <? lim then
        match m k with
        | MOk [] => svec s m fwd lim b (s (fwd k))
        | MOk _ => SAt k
        | MErr => SErr
        | MBad => SBad
        | MFuel => SFuel
        end
      else SNone
    | o => o
    end
  end.

(** The loop of search_and, match.c:1086-1094; [s] searches for the whole
    pattern, [m] is match_and. *)
Fixpoint sand (s : nat -> sres) (m : nat -> mres) (fwd : nat -> nat)
         (budget : nat) (r : sres) : sres :=
  match budget with
  | O => SFuel
  | S b =>
    match r with
    | SAt k =>
      match m k with
      | MOk [] => sand s m fwd b (s (fwd k))
      | MOk _ => SAt k
      | MErr => SErr
      | MBad => SBad
      | MFuel => SFuel
      end
    | o => o
    end
  end.

(** slow_search, match.c:3929-3941. *)
Fixpoint sslow (m : nat -> mres) (n a : nat) : sres :=
  match n with
  | O => SNone
  | S n' =>
    match m a with
    | MOk [] => sslow m n' (S a)
    | MOk _ => SAt a
    | MErr => SErr
    | MBad => SAt a
    | MFuel => SFuel
    end
  end.

Section Matcher.
(** The text; libu8's u8_tolower; the patterns symbols stand for
    (match_eval, match.c:243-249). *)
Variable t : list N.
Variable lower : N -> N.
Variable env : N -> option pat.

Definition len : nat := length t.

(** The character at a position; 0 at the end of the text. *)
Definition ch (i : nat) : N := nth i t 0%N.

(** forward_char, match.c:279-287: stays where it is at the NUL. *)
Definition fwd (i : nat) : nat := if i <? len then S i else i.

(** reduce_char, match.c:289-296. *)
Definition reduce (ic : bool) (c : N) : N := if ic then lower c else c.

Fixpoint eqs (a b : list N) : bool :=
  match a, b with
  | [], [] => true
  | x :: a', y :: b' => (x =? y)%N && eqs a' b'
  | _, _ => false
  end.

(** strncmp(pat,string+off,patlen)==0, as in match.c:314: the limit is not
    looked at. *)
Definition prefix_at (s : list N) (off : nat) : bool :=
  eqs (firstn (length s) (skipn off t)) s.

(** The loop of strmatcher for flags with KNO_MATCH_IGNORE_CASE,
    match.c:317-341. *)
Fixpoint ic_match (s : list N) (i lim : nat) : option nat :=
  match s with
  | [] => Some i
  | c :: s' =>
    if (i <? len) && (i <? lim) && (lower c =? lower (ch i))%N
    then ic_match s' (S i) lim else None
  end.

(** strmatcher, match.c:308-343. *)
Definition strmatcher (fl : flags) (s : list N) (off lim : nat) : option nat :=
  if f_ic fl then ic_match s off lim
  else if prefix_at s off then Some (off + length s) else None.

(** match_char_core and match_char_not_core, match.c:2126-2223: [test] tells
    whether a character goes on the run. *)
Fixpoint run_end (test : N -> bool) (n i : nat) : nat :=
  match n with
  | O => i
  | S n' => if test (ch i) then run_end test n' (S i) else i
  end.

Definition chars_test (fl : flags) (neg : bool) (s : list N) (c : N) : bool :=
  let hit := existsb (fun x => (reduce (f_ic fl) x =? reduce (f_ic fl) c)%N) s in
  if neg then negb hit else hit.

Definition match_chars (neg star : bool) (s : list N) (off lim : nat)
           (fl : flags) : list nat :=
  let e := run_end (chars_test fl neg s) (lim - off) off in
  if e <? lim then (if e =? off then (if star then [off] else []) else [e])
  else [lim].

(** The loops of isalnum_plus_match and its like, match.c:2483-2500: every end
    of a run, however far it goes; the loop ends at a character which fails
    the test, and the NUL at the end of the text is taken to fail it. *)
Fixpoint run_ends (test : N -> bool) (n i : nat) : list nat :=
  match n with
  | O => []
  | S n' => if test (ch i) then S i :: run_ends test n' (S i) else []
  end.

(** match_char_range, match.c:2110-2124.  With KNO_MATCH_IGNORE_CASE start
    becomes the lower case of end and actual the lower case of that
    (2118-2120).  At the end of the text u8_substring gives no pointer. *)
Definition match_range (a b : N) (off : nat) (fl : flags) : mres :=
  let start := if f_ic fl then lower b else a in
  let actual := if f_ic fl then lower start else ch off in
  if ((start <=? actual)%N && (actual <=? b)%N)
  then (if off <? len then MOk [S off] else MBad)
  else MOk [].

Definition newline (c : N) : bool := (c =? 10)%N || (c =? 13)%N.

(** match_and, match.c:1047-1075: not greedy inside; when greedy the largest
    of the common ends and [off].  An error from either side is passed to
    kno_intersection. *)
Definition match_and (dm : pat -> option pat -> nat -> nat -> flags -> mres)
           (p q : pat) (nx : option pat) (off lim : nat) (fl : flags) : mres :=
  let fl' := Flags (f_ic fl) false in
  match dm p nx off lim fl' with
  | MOk [] => MOk []
  | MOk a =>
    match dm q nx off lim fl' with
    | MOk b =>
      let c := filter (fun n => inb n b) a in
      if f_greedy fl then MOk [Nat.max off (list_max c)] else MOk c
    | MFuel => MFuel
    | _ => MBad
    end
  | MFuel => MFuel
  | _ => MBad
  end.

(** The matcher of each operator. [dm] and [ts] are kno_text_domatch and
    kno_text_search; [fuel] bounds the rounds of match_repeatedly. *)
Definition match_op (dm : pat -> option pat -> nat -> nat -> flags -> mres)
           (ts : pat -> nat -> nat -> flags -> sres) (fuel : nat)
           (p : pat) (nx : option pat) (off lim : nat) (fl : flags) : mres :=
  match p with
  (* match_star, match.c:877-891 *)
  | PStar q =>
    match_repeatedly (fun i => dm q nx i lim fl) (f_greedy fl) true fuel off
  | PStarAny =>
    match nx with
    | None => MOk [lim]
    | Some q =>
      match ts q off lim fl with
      | SAt k => MOk [k]
      | SNone => MOk [lim]
      | SErr => MErr
      | SBad => MBad
      | SFuel => MFuel
      end
    end
  (* match_plus, 929-937 *)
  | PPlus q =>
    match_repeatedly (fun i => dm q nx i lim fl) (f_greedy fl) false fuel off
  (* match_opt, 968-977 *)
  | POpt q =>
    match dm q nx off lim fl with
    | MOk [] => MOk [off]
    | o => o
    end
  (* match_not, 1001-1024; -2 is returned as it is *)
  | PNot q =>
    match ts q off lim fl with
    | SAt k =>
      if k =? off then MOk []
      else
        let last := if (k <? lim) && (off <? k) then k else lim in
        MOk (not_ends (last - fwd off) (fwd off) last)
    | SNone => MOk (not_ends (lim - fwd off) (fwd off) lim)
    | SFuel => MFuel
    | _ => MBad
    end
  (* match_not_gt, 1098-1113 *)
  | PNotGt q =>
    match ts q off lim fl with
    | SAt k => if lim <=? k then MOk [lim] else MOk [k]
    | SNone => MOk [lim]
    | SErr => MErr
    | SBad => MBad
    | SFuel => MFuel
    end
  | PAnd p q => match_and dm p q nx off lim fl
  (* match_choice, 1530-1549 *)
  | PChoiceOp [q] => dm q nx off lim fl
  | PChoiceOp [] => MOk []
  | PChoiceOp l => dm (PAlt l) None off lim fl
  | PPref l => mpref (fun q => dm q nx off lim fl) l
  (* match_bind, label_match, 1117-1151 *)
  | PLabel q => dm q nx off lim fl
  (* match_greedy, match_expansive, match_longest, 1725-1795 *)
  | PGreedy q => dm q None off lim (Flags (f_ic fl) true)
  | PExpansive q => dm q None off lim (Flags (f_ic fl) false)
  | PLongest q =>
    match dm q None off lim fl with
    | MOk l => MOk (get_longest l)
    | o => o
    end
  (* match_ci, match_cs, 1596-1636 *)
  | PIgnoreCase q => dm q None off lim (Flags true (f_greedy fl))
  | PMatchCase q => dm q None off lim (Flags false (f_greedy fl))
  (* match_bol, match_eol, match_bos, match_eos, match_rest, 1919-2093 *)
  | PBol =>
    if off =? 0 then MOk [0]
    else if newline (ch (off - 1)) then MOk [off] else MOk []
  | PEol =>
    if off =? lim then MOk [off]
    else if newline (ch off) then MOk [S off] else MOk []
  | PBos => if off =? 0 then MOk [off] else MOk []
  | PEos => if off =? lim then MOk [off] else MOk []
  | PRest => MOk [lim]
  | PRange a b => match_range a b off fl
  (* match_char, match_char_star, match_char_not, match_char_not_star,
     2126-2241 *)
  | PChars neg star s => MOk (match_chars neg star s off lim fl)
  (* isalnum_match, isalnum_plus_match and their like, 2475-2500 *)
  | PClass f => if f (ch off) then MOk [fwd off] else MOk []
  | PClassPlus f =>
    let l := run_ends f (len - off) off in
    MOk (if f_greedy fl then match l with [] => [] | _ => [list_max l] end
         else l)
  | _ => MErr
  end.

(** get_longest_match on the result of an operator when greedy,
    match.c:476-478. *)
Definition after_op (fl : flags) (r : mres) : mres :=
  match r with
  | MOk l => MOk (if f_greedy fl then get_longest l else l)
  | o => o
  end.

(** kno_text_domatch, match.c:397-495. *)
Definition match_step (dm : pat -> option pat -> nat -> nat -> flags -> mres)
           (ts : pat -> nat -> nat -> flags -> sres) (fuel : nat)
           (p : pat) (nx : option pat) (off lim : nat) (fl : flags) : mres :=
  if lim <? off then MOk []
  else
    match p with
    | PStr s =>
      if off =? lim then MOk (match s with [] => [off] | _ => [] end)
      else
        match strmatcher fl s off lim with
        | Some e => MOk [e]
        | None => MOk []
        end
    | PAlt l =>
      match malt (fun q => dm q nx off lim fl) l with
      | MOk a =>
        MOk (if f_greedy fl
             then match a with [] => [] | _ => [list_max a] end
             else a)
      | o => o
      end
    (* 458-466; the flags are not looked at *)
    | PChr c =>
      if off =? lim then MOk []
      else if (c =? ch off)%N then MOk [fwd off] else MOk []
    | PVec l => mseq (fun e n i => dm e n i lim fl) l nx [off]
    | PSym x =>
      match env x with
      | None => MErr
      | Some q => dm q nx off lim fl
      end
    | _ => after_op fl (match_op dm ts fuel p nx off lim fl)
    end.

(** strsearch, match.c:3886-3927, for KNO_MATCH_IGNORE_CASE alone.  The inner
    loop sets [cand] to the place of each character it reads; the character
    read first in a round of the outer loop (3908) does not set it.
    Returns the place found. *)
Fixpoint ss_inner (first : option N) (lim n scan cand : nat) (c : N)
  : option (nat * nat * N) :=
  match n with
  | O => None
  | S n' =>
    if (match first with Some f => (c =? f)%N | None => false end)
    then Some (scan, cand, c)
    else if scan <? lim then
      if scan <? len
      then ss_inner first lim n' (S scan) scan (lower (ch scan))
      else None
    else Some (scan, cand, c)
  end.

Fixpoint ss_outer (fl : flags) (s : list N) (first : option N)
         (lim n scan cand : nat) : option nat :=
  match n with
  | O => None
  | S n' =>
    if scan <? lim then
      if scan <? len then
        match ss_inner first lim (S len) (S scan) cand (lower (ch scan)) with
        | None => None
        | Some (scan', cand', c) =>
          if (match first with Some f => (c =? f)%N | None => false end)
          then
            if lim <? cand' then None
            else
              match strmatcher fl s cand' lim with
              | Some (S _) => Some cand'
              | _ => ss_outer fl s first lim n' scan' cand'
              end
          else None
        end
      else None
    else None
  end.

Definition strsearch (fl : flags) (s : list N) (off lim : nat) : option nat :=
  ss_outer fl s (match s with [] => None | c :: _ => Some (lower c) end)
           lim (S len) off off.

Definition opt_res (o : option nat) : sres :=
  match o with Some k => SAt k | None => SNone end.

(** The searcher of each operator. *)
Definition search_op (dm : pat -> option pat -> nat -> nat -> flags -> mres)
           (ts : pat -> nat -> nat -> flags -> sres) (fuel : nat)
           (p : pat) (off lim : nat) (fl : flags) : sres :=
  match p with
  (* search_star, search_opt, search_rest: 892-896, 978-982, 2094-2098 *)
  | PStar _ | PStarAny | POpt _ | PRest => SAt off
  (* search_plus, 938-947 *)
  | PPlus q => ts q off lim fl
  (* search_not, 1026-1044, also of NOT> (4113) *)
  | PNot q | PNotGt q =>
    match dm q None off lim fl with
    | MOk [] => SAt off
    | MOk l => SAt (Nat.max off (list_max l))
    | MFuel => SFuel
    | _ => SBad
    end
  (* search_and, 1077-1095 *)
  | PAnd a b =>
    sand (fun k => ts p k lim fl) (fun k => match_and dm a b None k lim fl)
         fwd fuel (ts a off lim fl)
  (* search_choice, 1551-1571 *)
  | PChoiceOp [q] => ts q off lim fl
  | PChoiceOp [] => SNone
  | PChoiceOp l => ts (PAlt l) off lim fl
  | PPref l => spref (fun q n => ts q off n fl) l lim None
  (* search_bind, label_search, 1133-1161 *)
  | PLabel q => ts q off lim fl
  | PGreedy q => ts q off lim (Flags (f_ic fl) true)
  | PExpansive q => ts q off lim (Flags (f_ic fl) false)
  | PLongest q => ts q off lim fl
  | PIgnoreCase q => ts q off lim (Flags true (f_greedy fl))
  | PMatchCase q => ts q off lim (Flags false (f_greedy fl))
  (* search_bol, 1930-1943 *)
  | PBol =>
    if off =? 0 then SAt off
    else if newline (ch (off - 1)) then SAt off
    else
      match first_at (fun k => (ch k =? 10)%N) off (len - off) with
      | Some k => SAt (S k)
      | None =>
        match first_at (fun k => (ch k =? 13)%N) off (len - off) with
        | Some k => SAt (S k)
        | None => SNone
        end
      end
  (* search_eol, 1957-1970 *)
  | PEol =>
    if off =? lim then SAt (S off)
    else
      match first_at (fun k => (ch k =? 10)%N) off (len - off) with
      | Some k => SAt k
      | None =>
        match first_at (fun k => (ch k =? 13)%N) off (len - off) with
        | Some k => SAt k
        | None => SAt lim
        end
      end
  (* search_bos, search_eos, 2062-2084 *)
  | PBos => if off =? 0 then SAt off else SNone
  | PEos => if off =? lim then SAt (S off) else SAt lim
  (* CHAR-RANGE, CHARS, ... have no searcher: slow_search, 4018-4020 *)
  | PRange _ _ | PChars _ _ _ =>
    sslow (fun k => dm p None k lim fl) (lim - off) off
  (* isalnum_search and its like, 2501-2512 *)
  | PClass f | PClassPlus f =>
    opt_res (first_at (fun k => f (ch k)) off (lim - off))
  | _ => SErr
  end.

(** kno_text_search, match.c:3945-4047.  For a character below 0x80 the
    character searched for is [string[lim]] (3984-3985), which is the NUL when
    the limit is the end of the text. *)
Definition search_step (dm : pat -> option pat -> nat -> nat -> flags -> mres)
           (ts : pat -> nat -> nat -> flags -> sres) (fuel : nat)
           (p : pat) (off lim : nat) (fl : flags) : sres :=
  if lim <? off then SNone
  else
    match p with
    | PStr s =>
      match (if f_ic fl then strsearch fl s off lim
             else first_at (prefix_at s) off (S len - off)) with
      | Some k => if k <? lim then SAt k else SNone
      | None => SNone
      end
    | PVec [] => SBad
    | PVec (e :: _) =>
      svec (fun k => ts e k lim fl) (fun k => dm p None k lim fl) fwd lim
           fuel (ts e off lim fl)
    | PChr c =>
      if (c <? 128)%N then
        if lim <? len then
          match first_at (fun k => (ch k =? ch lim)%N) off (len - off) with
          | Some k => if k <? lim then SAt k else SNone
          | None => SNone
          end
        else SNone
      else opt_res (first_at (fun k => (ch k =? c)%N) off (lim - off))
    | PAlt l => salt (fun q => ts q off lim fl) l lim None
    | PSym x =>
      match env x with
      | None => SErr
      | Some q => ts q off lim fl
      end
    | _ => search_op dm ts fuel p off lim fl
    end.

(** The recursion of the two functions through each other; [fuel] bounds its
    depth. *)
Fixpoint both (fuel : nat)
  : (pat -> option pat -> nat -> nat -> flags -> mres) *
    (pat -> nat -> nat -> flags -> sres) :=
  match fuel with
  | O => (fun _ _ _ _ _ => MFuel, fun _ _ _ _ => SFuel)
  | S f => (match_step (fst (both f)) (snd (both f)) f,
            search_step (fst (both f)) (snd (both f)) f)
  end.

Definition domatch (fuel : nat) := fst (both fuel).
Definition tsearch (fuel : nat) := snd (both fuel).

(** kno_text_matcher, match.c:497-503. *)
Definition text_matcher (fuel : nat) (p : pat) (off lim : nat) (fl : flags)
  : mres := domatch fuel p None off lim fl.

(** kno_text_match, match.c:4049-4066: whether one of the ends is the limit. *)
Definition text_match (fuel : nat) (p : pat) (off lim : nat) (fl : flags)
  : option bool :=
  match text_matcher fuel p off lim fl with
  | MOk l => Some (inb lim l)
  | _ => None
  end.

End Matcher.

(** Functions on texts built on the matcher: src/text/texttools.c.

    Texts and positions are those of TextMatchModel; the conversion of
    character positions to byte offsets and back (convert_offsets,
    return_offsets, texttools.c:910-943) is left out.  [None] is an error object
    or no answer within the fuel. *)
From Coq Require Import List Bool Arith NArith ZArith Lia.
From Verif Require Import TextMatchModel.
Import ListNotations.

Section Tools.
Variable t : list N.
Variable lower : N -> N.
Variable env : N -> option pat.

(** kno_substring(data+a,data+b). *)
Definition part (a b : nat) : list N := firstn (b - a) (skipn a t).

Notation dm f p i lim := (domatch t lower env f p None i lim flags0).
Notation ts f p i lim := (tsearch t lower env f p i lim flags0).

(** textgather2list (text/gather/list), texttools.c:1133-1173: the loop.
    [r] is start. The parts found are given by where they begin and end. *)
Fixpoint gather_loop (f b : nat) (p : pat) (lim : nat) (r : sres)
  : option (list (nat * nat)) :=
  match b with
  | O => None
  | S b' =>
    match r with
    | SAt s =>
      match dm f p s lim with
      | MOk [] => Some []
      | MOk l =>
        let e := list_max l in
        if s <? e then
          match gather_loop f b' p lim (ts f p e lim) with
          | Some x => Some ((s, e) :: x)
          | None => None
          end
        else if e =? lim then Some []
        else gather_loop f b' p lim (ts f p (fwd t e) lim)
      | _ => None
      end
    | SNone => Some []
    | _ => None
    end
  end.

Definition text_gather_list (f : nat) (p : pat) (off lim : nat)
  : option (list (list N)) :=
  match gather_loop f f p lim (ts f p off lim) with
  | Some x => Some (map (fun ab => part (fst ab) (snd ab)) x)
  | None => None
  end.

(** textsubst (text/subst) with a string to put in, texttools.c:1317-1424.
    What comes after the last match is written up to the end of the string
    (1350, 1421), not up to the limit.  A search which fails with an error after
    the first ends the loop like one that finds nothing (1331). *)
Fixpoint subst_loop (f b : nat) (p : pat) (rep : list N) (lim last : nat) (r : sres)
  : option (list N) :=
  match b with
  | O => None
  | S b' =>
    match r with
    | SAt s =>
      match dm f p s lim with
      | MOk [] => Some (skipn last t)
      | MOk l =>
        let e := list_max l in
        if s <? e then
          match subst_loop f b' p rep lim e (ts f p e lim) with
          | Some x => Some (part last s ++ rep ++ x)
          | None => None
          end
        else if e =? lim then Some (skipn last t)
        else subst_loop f b' p rep lim last (ts f p (fwd t e) lim)
      | _ => None
      end
    | SNone | SErr => Some (skipn last t)
    | _ => None
    end
  end.

Definition text_subst (f : nat) (p : pat) (rep : list N) (off lim : nat)
  : option (list N) :=
  if lim =? off then Some []
  else
    match ts f p off lim with
    | SAt s => subst_loop f f p rep lim off (SAt s)
    | SNone => Some (part off lim)
    | _ => None
    end.

(** What goes on the list for a separator from [s] to [e] when the last piece
    ended at [start], texttools.c:2000-2009. *)
Definition slice_pieces (keep : Z) (start s e : nat) : list (list N) :=
  if (0 <? e) && (start <? e) then
    if (keep =? 0)%Z then [part start s]
    else if (keep =? 2)%Z then [part start s; part s e]
    else if (0 <? keep)%Z then [part start e]
    else [part start s]
  else [].

(** textslice (text/slice), texttools.c:1944-2046. *)
Fixpoint slice_loop (f b : nat) (p : pat) (keep : Z) (lim start : nat) (r : sres)
  : option (list (list N)) :=
  let tail := Some (if start <? lim then [part start lim] else []) in
  match b with
  | O => None
  | S b' =>
    match r with
    | SAt s =>
      if s <? lim then
        match dm f p s lim with
        | MOk [] => slice_loop f b' p keep lim start (ts f p (fwd t s) lim)
        | MOk l =>
          let e := list_max l in
          let start' := if (keep <? 0)%Z then s else e in
          let r' := if s =? e then ts f p (fwd t s) lim else ts f p e lim in
          match slice_loop f b' p keep lim start' r' with
          | Some x => Some (slice_pieces keep start s e ++ x)
          | None => None
          end
        | _ => None
        end
      else tail
    | SNone => tail
    | _ => None
    end
  end.

Definition text_slice (f : nat) (p : pat) (keep : Z) (off lim : nat)
  : option (list (list N)) :=
  slice_loop f f p keep lim off (ts f p off lim).

(** The keep argument of text/slice (interpret_keep_arg, texttools.c:1928-1942)
    and its default (1955). *)
Inductive keep_arg : Type :=
| KFalse | KTrue | KInt (n : Z) | KSuffix | KPrefix | KSep | KOther.

Definition interpret_keep (k : keep_arg) : Z :=
  match k with
  | KFalse => 0 | KTrue => 1 | KInt n => n
  | KSuffix => 1 | KPrefix => -1 | KSep => 2 | KOther => 0
  end.

Definition keep_default : keep_arg := KTrue.

(** string_ends_with_test, texttools.c:1683-1710. *)
Fixpoint ends_loop (f b : nat) (p : pat) (lim : nat) (r : sres) : option bool :=
  match b with
  | O => None
  | S b' =>
    match r with
    | SAt s =>
      match dm f p s lim with
      | MOk l =>
        if inb lim l then Some true
        else ends_loop f b' p lim (ts f p (fwd t s) lim)
      | _ => None
      end
    | SNone => Some false
    | _ => None
    end
  end.

Definition string_ends_with (f : nat) (p : pat) (off lim : nat) : option bool :=
  ends_loop f f p lim (ts f p off lim).

(** string_starts_with, texttools.c:1632-1681, and string_contains, 1585-1630,
    for one string. *)
Definition string_starts_with (f : nat) (p : pat) (off lim : nat) : option bool :=
  match dm f p off lim with
  | MOk [] => Some false
  | MOk _ => Some true
  | _ => None
  end.

Definition string_contains (f : nat) (p : pat) (off lim : nat) : option bool :=
  match ts f p off lim with
  | SAt _ => Some true
  | SNone => Some false
  | _ => None
  end.

(** lastword_prim with a string as separator, texttools.c:2136-2143: the loop.
    Each round searches again from where the separator was found. *)
Fixpoint lastword_loop (b : nat) (sep : list N) (scan : nat) (e : nat) : option nat :=
  match b with
  | O => None
  | S b' =>
    match first_at (prefix_at t sep) scan (S (len t) - scan) with
    | Some k => lastword_loop b' sep k (k + length sep)
    | None => Some e
    end
  end.

End Tools.

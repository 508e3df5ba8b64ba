(** * Command line arguments: kno_unparse_arg, kno_parse_arg, kno_parse_slotid.

    Source: /repo/src/lisp/unparse.c:552-576; /repo/src/lisp/parse.c:399-417, 1744-1902;
    /repo/src/eval/coreops.c:458-504; /repo/src/lisp/symbols.c:321-331 (kno_getsym);
    /repo/include/kno/ptr.h:745-830 (KNO_EOF is no error).

    Text and values are those of the printer's model (PrintModel).  The functions take C
    strings: text ends at its first NUL.  What the reader's model leaves open is left open
    here ([RUnk], [ANot]). *)

From Coq Require Import Strings.String.
From Verif Require Export PrintModel.
Local Open Scope N_scope.

Section Arg.
  (** Functions of libu8 on code points (see PrintModel); u8_isdigit, u8_isctrl. *)
  Variable isupper8 : N -> bool.
  Variable tolower8 : N -> N.
  Variable isspace8 : N -> bool.
  Variable isdigit8 : N -> bool.
  Variable isctrl8 : N -> bool.
  Variable b64 : list N -> list N.
  Variable outfmt : Z.
  Variable stale : bool.
  Notation unparse := (unparse isupper8 tolower8 b64 outfmt).
  Notation kparse := (parse tolower8 isspace8 stale).

  (** kno_unparse_arg, unparse.c:561-576.  strchr also finds the NUL that ends an empty
      string (566); isdigit is not true of the bytes above 127. *)
  Definition unparse_arg (v : pv) : list N :=
    match v with
    | PStr s =>
      match until0 s with
      | [] => [92]
      | c :: r => if strchr (codes "@{#(""") c || isdigit c then 92 :: c :: r else c :: r
      end
    | POid a => print_oid a
    | PFix _ | PBig _ => unparse v
    | _ => 58 :: unparse v
    end.

  (** The last loop of kno_read_arg, parse.c:1809-1820: the condition on the ends of lines
      always holds. *)
  Fixpoint all_loop (s : list N) : list N :=
    match s with
    | [] => []
    | c :: r =>
      c :: match r with
           | [] => []
           | d :: r' => if d =? 92 then d :: all_loop r' else all_loop r
           end
    end.

  (** kno_read_arg, parse.c:1764-1822, on text without NULs: a value and what is left,
      KNO_EOF ([None]), an error or not modelled.  copy_atom is called without case
      conversion (1793). *)
  Inductive rr := RGot (v : pv) (rest : list N) | REof | RBad | RUnk.
  Definition of_pr (p : pr) : rr :=
    match p with
    | Got v rest => RGot v rest
    | Eox | Bad => RBad
    | Unk => RUnk
    end.
  Definition read_arg (s : list N) : rr :=
    match s with
    | [] => REof
    | c :: r =>
      if c =? 92 then RGot (PStr r) []
      else if (c =? 58) || (c =? 39) then
        match r with
        | [] => RGot (PStr [c]) []
        | _ => of_pr (kparse r)
        end
      else if (c =? 46) || (c =? 43) || (c =? 45) || isdigit8 c then
        match copy_atom (fun c => c) s with
        | AUnk => RUnk
        | AGot t rest =>
          match parse_atom_text stale t rest with
          | Got (PFix z) _ => RGot (PFix z) rest
          | Got (PBig z) _ => RGot (PBig z) rest
          | Got _ _ => RGot (PStr t) rest
          | Eox | Bad => RGot (PStr []) rest
          | Unk => RUnk
          end
        end
      else if (c <? 128) && strchr (codes "@{#(""|") c then of_pr (kparse s)
      else RGot (PStr (c :: all_loop r)) []
    end.

  (** kno_parse_arg, parse.c:1841-1857: one more character is read, and blanks are skipped
      as long as they follow each other; the value counts when this was all. *)
  Fixpoint at_end (s : list N) : bool :=
    match s with
    | [] => true
    | c :: r => if isspace8 c then at_end r else match r with [] => true | _ => false end
    end.
  Inductive av := AVal (v : pv) | AEof | ANot.
  Definition parse_arg (arg : list N) : av :=
    let s := until0 arg in
    match read_arg s with
    | RGot v rest => if at_end rest then AVal v else AVal (PStr s)
    | REof => AEof
    | RBad => AVal (PStr s)
    | RUnk => ANot
    end.

  (** parse-arg and parse-slotid, coreops.c:458-496, on strings: both call
      kno_parse_arg. *)
  Definition parse_arg_prim (s : list N) : av := parse_arg s.
  Definition parse_slotid_prim (s : list N) : av := parse_arg s.

  (** kno_parse_slotid, parse.c:1866-1902; what follows the value is not looked at. *)
  Definition parse_slotid (arg : list N) : av :=
    let s := until0 arg in
    let res (r : pr) : av :=
      match r with
      | Got v _ => AVal v
      | Eox | Bad => AVal (PStr s)
      | Unk => ANot
      end in
    match s with
    | [] => AEof
    | c :: r =>
      if match r with [] => strchr (codes "@\:'#{[") c | _ => false end then AVal (PStr s)
      else if c =? 64 then match parse_oid s with POk a _ => AVal (POid a) | _ => ANot end
      else if c =? 92 then AVal (PStr r)
      else if (c <? 128) && strchr (codes "@{#(""|") c then res (kparse s)
      else if (c =? 58) || (c =? 39) then res (kparse r)
      else if existsb (fun c => isspace8 c || isctrl8 c) s then AVal (PStr s)
      else AVal (PSym (map tolower8 s))
    end.
End Arg.

(** * JSON: ->json and jsonparse.

    Source: /repo/src/web/json.c:25-64, 115-392, 398-564, 587-643;
    /repo/src/lisp/symbols.c:321-331 (kno_getsym); /repo/src/lisp/tables.c:5160-5184 (pairs
    as tables); /repo/include/kno/ptr.h:755, 815-818 (KNO_EOD is no error).

    Text and values are those of the printer's model (PrintModel).  Tables are lists of
    entries: the slotmaps jsonparse makes, in the order of reading.  Not modelled: field
    maps, the functions for slots, OIDs and other values (all #void), the flag for
    compound keys (KNO_JSON_ANYKEY, taken to be off), timestamps, UUIDs, flonums, other
    tables, memory and error details.  What the reader's model leaves open ([Unk]) and
    writing the code point -1 to a stream give [JUnk]. *)

From Coq Require Import Strings.String.
From Verif Require Export PrintModel.
Local Open Scope N_scope.

(** Values: those of the printer, the empty choice, KNO_EOD, vectors, choices and tables.
    A vector always is a [JVec]. *)
Inductive jv :=
| JA (a : pv) | JEmpty | JEod | JVec (l : list jv) | JCh (l : list jv)
| JTab (kvs : list (pv * jv)).
Fixpoint inj (a : pv) : jv :=
  match a with
  | PVec l => JVec (map inj l)
  | _ => JA a
  end.

(** The flags, json.c:25-35. *)
Definition idkey (fl : N) : bool := N.testbit fl 2.
Definition slotids (fl : N) : bool := N.testbit fl 3.
Definition colonize (fl : N) : bool := N.testbit fl 4.
Definition strict (fl : N) : bool := N.testbit fl 8.

(** get_json_flags, json.c:304-357, for booleans, fixnums and options. *)
Inductive flag_arg :=
| FFalse | FTrue | FFix (z : Z) | FDefault
| FOpts (noslotids colon rawids ticks ticklets verbose strict : bool).
Definition get_json_flags (a : flag_arg) : N :=
  match a with
  | FFalse => 0
  | FTrue => 24
  | FFix z => if (0 <=? z)%Z && (z <? 256)%Z then Z.to_N z else 8
  | FDefault => 8
  | FOpts ns co raw ti tl ve st =>
    (if ns then 0 else 8) + (if co then 16 else 0) + (if raw then 0 else 4)
    + (if ti then 32 else 0) + (if tl then 64 else 0) + (if ve then 128 else 0)
    + (if st then 256 else 0)
  end.

Section Json.
  (** Functions of libu8 on code points (see PrintModel), among them u8_isalnum, u8_isdigit
      and u8_isctrl. *)
  Variable isupper8 : N -> bool.
  Variable tolower8 : N -> N.
  Variable isspace8 : N -> bool.
  Variable isalnum8 : N -> bool.
  Variable isdigit8 : N -> bool.
  Variable isctrl8 : N -> bool.
  Variable b64 : list N -> list N.
  Variable outfmt : Z.
  Variable stale : bool.
  (** The order in which kno_getkeys lists the keys of a table. *)
  Variable order : list (pv * list N) -> list (pv * list N).
  Notation unparse := (unparse isupper8 tolower8 b64 outfmt).
  Notation kparse := (parse tolower8 isspace8 stale).
  Notation kparser := (parser tolower8 isspace8 stale).

  (** ** Output *)

  (** json_escape, json.c:398-426, one character; the text ends at a NUL (401). *)
  Definition jesc (c : N) : list N :=
    if c =? 10 then [92; 110]
    else if c =? 8 then [92; 98]
    else if c =? 12 then [92; 102]
    else if c =? 13 then [92; 114]
    else if c =? 9 then [92; 116]
    else if c =? 34 then [92; 34]
    else if c =? 92 then [92; 92]
    else if (128 <=? c) || iscntrl c then 92 :: 117 :: hex4 c
    else [c].
  Definition json_escape (s : list N) : list N := flat_map jesc (until0 s).

  (** json_lower, json.c:428-443, one character. *)
  Definition jlow (c : N) : list N :=
    let lc := tolower8 c in
    if lc =? 10 then [92; 110]
    else if lc =? 13 then [92; 114]
    else if lc =? 9 then [92; 116]
    else if lc =? 92 then [92; 92]
    else if lc =? 34 then [92; 34]
    else [lc].
  Definition json_lower (s : list N) : list N := flat_map jlow (until0 s).

  (** json_slotval, json.c:445-468, without a slot function: the key's text (from
      json_unparse when it is not written as a name) and the value's. *)
  Definition slot (fl : N) (k : pv) (ktext vtext : list N) : list N :=
    match k with
    | PSym n => if slotids fl
                then if idkey fl then json_lower n else 34 :: json_lower n ++ [34]
                else ktext
    | _ => ktext
    end ++ [58; 32] ++ vtext.

  (** Elements between brackets, separated by commas, 492-507; slots between braces,
      537-547. *)
  Fixpoint commas (l : list (list N)) : list N :=
    match l with
    | [] => []
    | [x] => x
    | x :: r => x ++ 44 :: commas r
    end.

  (** json_unparse, json.c:470-564.  A pair is a table with one key, its CAR (tables.c:
      5160-5184, 5355-5360; TABLEP, tables.h:93). *)
  Fixpoint atext (fl : N) (a : pv) : list N :=
    match a with
    | PFix z | PBig z => dec_z z
    | POid o => 34 :: (if fl =? 0 then [] else [58]) ++ print_oid o ++ [34]
    | PSym n => 34 :: 58 :: json_escape n ++ [34]
    | PStr s =>
      34 :: (if colonize fl && match s with c :: _ => c =? 58 | [] => false end
             then [92; 92] else [])
      ++ json_escape s ++ [34]
    | PTrue => codes "true"
    | PFalse => codes "false"
    | PVec l => 91 :: commas (map (atext fl) l) ++ [93]
    | PPair k d => 123 :: slot fl k (atext fl k) (atext fl d) ++ [125]
    | PPkt _ | PChar _ | PNil =>
      34 :: (if fl =? 0 then [] else [58]) ++ json_escape (unparse a) ++ [34]
    end.
  Fixpoint jtext (fl : N) (v : jv) : list N :=
    match v with
    | JA a => atext fl a
    | JEmpty => codes "[]"
    | JEod => 34 :: (if fl =? 0 then [] else [58]) ++ codes "#eod" ++ [34]
    | JVec l => 91 :: commas (map (jtext fl) l) ++ [93]
    | JCh l => 91 :: commas (map (jtext fl) l) ++ [93]
    | JTab kvs =>
      123 :: commas (map (fun p => slot fl (fst p) (atext fl (fst p)) (snd p))
                         (order ((fix entries (l : list (pv * jv)) : list (pv * list N) :=
                                    match l with
                                    | [] => []
                                    | (k, x) :: r => (k, jtext fl x) :: entries r
                                    end) kvs))) ++ [125]
    end.
  (** jsonstring, json.c:596-606: flags from KNO_JSON_MAXFLAGS (256) up are refused. *)
  Definition to_json (a : flag_arg) (v : jv) : option (list N) :=
    if 256 <=? get_json_flags a then None else Some (jtext (get_json_flags a) v).

  (** ** Input *)

  (** Results: a value (possibly KNO_EOD) and what is left, an error, not modelled, or out
      of fuel. *)
  Inductive jr := JGot (v : jv) (rest : list N) | JErr | JUnk | JFuel.
  Inductive kr := KGot (k : pv) (rest : list N) | KErr | KUnk.

  (** skip_whitespace, json.c:50-56: the input ends, a NUL was read, or the next
      character. *)
  Inductive sw := SEnd | SNul (r : list N) | SAt (c : N) (r : list N).
  Fixpoint jskip (s : list N) : sw :=
    match s with
    | [] => SEnd
    | c :: r => if c =? 0 then SNul r else if isspace8 c then jskip r else SAt c r
    end.

  (** json_atom, json.c:130-146.  readc (41-48) reads a backslash as itself, since
      kno_read_escape is called with the backslash put back. *)
  Definition atomchar (c : N) : bool :=
    isalnum8 c || (c =? 45) || (c =? 95) || (c =? 43) || (c =? 46).
  Fixpoint take_jatom (s : list N) : list N * list N :=
    match s with
    | [] => ([], [])
    | c :: r => if atomchar c then let (t, rest) := take_jatom r in (c :: t, rest)
                else ([], s)
    end.
  Definition json_atom (s : list N) : jr :=
    let (t, rest) := take_jatom s in
    if list_eq_dec N.eq_dec t (codes "true") then JGot (JA PTrue) rest
    else if list_eq_dec N.eq_dec t (codes "false") then JGot (JA PFalse) rest
    else if list_eq_dec N.eq_dec t (codes "null") then JGot JEmpty rest
    else match kparse t with
         | Got v _ => JGot (inj v) rest
         | Eox | Bad => JGot (JA (PStr t)) rest
         | Unk => JUnk
         end.

  (** json_string, json.c:148-178, after the opening quote [q]; the end of the input also
      ends the string (160).  The text, or [None] when -1 is written. *)
  Fixpoint jstr_loop (k : nat) (q : N) (s acc : list N) : option (list N * list N) :=
    match k with
    | O => None
    | S k' =>
      match s with
      | [] => Some (rev acc, [])
      | c :: r =>
        if c =? q then Some (rev acc, r)
        else if c =? 92 then
          match read_escape r with
          | EGot x r' => jstr_loop k' q r' (x :: acc)
          | _ => None
          end
        else jstr_loop k' q r (c :: acc)
      end
    end.
  Definition json_string (fl : N) (q : N) (s : list N) : jr :=
    let finish (raw : bool) (o : option (list N * list N)) : jr :=
      match o with
      | None => JUnk
      | Some (t, rest) =>
        if negb raw && colonize fl && match t with c :: _ => c =? 58 | [] => false end then
          match kparse (until0 (tl t)) with
          | Got v _ => JGot (inj v) rest
          | Eox | Bad => JGot (JA (PStr t)) rest
          | Unk => JUnk
          end
        else JGot (JA (PStr t)) rest
      end in
    match s with
    | c :: r =>
      if (c =? 92) && colonize fl then
        match r with
        | [] => JUnk
        | d :: r' => finish (d =? 58) (jstr_loop (S (length r')) q r' [d])
        end
      else finish false (jstr_loop (S (length s)) q s [])
    | [] => finish false (jstr_loop 1 q s [])
    end.

  (** json_slotid, json.c:608-643, after the opening quote [q].  In the loop the quote is
      looked for before the backslash, also at the first character, which a backslash was
      to protect; the reader is called after the special character has been read; its
      value is returned with the closing quote not yet read (621-629). *)
  Fixpoint slot_loop (k : nat) (q : N) (s acc : list N) : option (list N * list N) :=
    match k with
    | O => None
    | S k' =>
      match s with
      | [] => Some (rev acc, [])
      | c :: r =>
        if c =? q then Some (rev acc, r)
        else if c =? 92 then
          match r with
          | [] => None
          | d :: r' => slot_loop k' q r' (d :: acc)
          end
        else slot_loop k' q r (c :: acc)
      end
    end.
  Definition slot_special (c : N) : bool := (c <? 128) && strchr (codes "@\:'#{[") c.
  (** 635-640; kno_getsym, symbols.c:321-331. *)
  Definition slot_name (t : list N) : pv :=
    if existsb (fun c => isspace8 c || isctrl8 c) t then PStr (until0 t)
    else PSym (map tolower8 (until0 t)).
  Definition json_slotid (q : N) (s : list N) : kr :=
    let finish (o : option (list N * list N)) : kr :=
      match o with
      | None => KUnk
      | Some (t, rest) => KGot (slot_name t) rest
      end in
    match s with
    | [] => finish (Some ([], []))
    | c :: r =>
      if c =? 92 then finish (slot_loop (S (length r)) q r [])
      else if slot_special c then
        match kparser (S (2 * length r)) r with
        | Got v rest => match jskip rest with
                        | SAt d r' => if d =? q then KGot v (d :: r') else KErr
                        | _ => KErr
                        end
        | Unk => KUnk
        | _ => KErr
        end
      else finish (slot_loop (S (length s)) q s [])
    end.

  (** json_key, json.c:180-217, without a field map and without KNO_JSON_ANYKEY. *)
  Definition atom_key (fl : N) (s : list N) : kr :=
    match json_atom s with
    | JGot (JA (PFix z)) rest => KGot (PFix z) rest
    | JGot (JA (PBig z)) rest => KGot (PBig z) rest
    | JGot (JA (PSym n)) rest => if idkey fl then KGot (PSym n) rest else KErr
    | JUnk => KUnk
    | _ => KErr
    end.
  Definition json_key (fl : N) (s : list N) : kr :=
    match jskip s with
    | SEnd => KErr
    | SNul r => if idkey fl then atom_key fl r else KErr
    | SAt c r =>
      if (c =? 39) && strict fl then KErr
      else if (c =? 34) || (c =? 39) then
        if slotids fl then json_slotid c r
        else match json_string fl c r with
             | JGot (JA k) rest => KGot k rest
             | _ => KUnk
             end
      else if (c =? 123) || (c =? 91) then KErr
      else if negb (idkey fl) && negb (isdigit8 c || (c =? 43) || (c =? 45)) then KErr
      else atom_key fl (c :: r)
    end.

  (** json_vector, json.c:219-250, after the bracket; [p] is json_parse. *)
  Fixpoint jvec_loop (p : list N -> jr) (k : nat) (s : list N) (acc : list jv) : jr :=
    match k with
    | O => JFuel
    | S k' =>
      let elt (s : list N) : jr :=
        match p s with
        | JGot v r => jvec_loop p k' r (v :: acc)
        | e => e
        end in
      match jskip s with
      | SEnd => JErr
      | SNul r => elt r
      | SAt c r =>
        if c =? 93 then JGot (JVec (rev acc)) r
        else if c =? 44 then jvec_loop p k' r acc
        else elt (c :: r)
      end
    end.

  (** json_table, json.c:252-299, after the brace: where no colon follows the key,
      KNO_EOD is returned (280). *)
  Fixpoint jtab_loop (p : list N -> jr) (fl : N) (k : nat) (s : list N)
      (acc : list (pv * jv)) : jr :=
    match k with
    | O => JFuel
    | S k' =>
      let entry (s : list N) : jr :=
        match json_key fl s with
        | KErr => JErr
        | KUnk => JUnk
        | KGot key r =>
          match jskip r with
          | SEnd => JGot JEod []
          | SNul r' => JGot JEod r'
          | SAt c r' =>
            if c =? 58 then
              match p r' with
              | JGot v r'' => jtab_loop p fl k' r'' ((key, v) :: acc)
              | e => e
              end
            else JGot JEod (c :: r')
          end
        end in
      match jskip s with
      | SEnd => JErr
      | SNul r => entry r
      | SAt c r =>
        if c =? 125 then JGot (JTab (rev acc)) r
        else if c =? 44 then jtab_loop p fl k' r acc
        else entry (c :: r)
      end
    end.

  (** json_parse, json.c:115-128.  [n] bounds the nesting and the number of turns of each
      loop. *)
  Fixpoint json_parse (n : nat) (fl : N) (s : list N) : jr :=
    match n with
    | O => JFuel
    | S n' =>
      match jskip s with
      | SEnd => json_atom []
      | SNul r => json_atom r
      | SAt c r =>
        if c =? 91 then jvec_loop (json_parse n' fl) n r []
        else if c =? 123 then jtab_loop (json_parse n' fl) fl n r []
        else if c =? 34 then json_string fl c r
        else if c =? 39 then if strict fl then JErr else json_string fl c r
        else json_atom (c :: r)
      end
    end.
  (** jsonparseprim, json.c:376-392, on a string; what is left of it is ignored. *)
  Definition jsonparse (n : nat) (a : flag_arg) (s : list N) : jr :=
    json_parse n (get_json_flags a) s.
End Json.

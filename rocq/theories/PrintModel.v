(** * The printer and the reader.

    Source: /repo/src/lisp/unparse.c:39-97, 114-325, 353-439; /repo/src/lisp/parse.c:42-53,
    82-100, 221-316, 399-511, 706-733, 884-1007, 1050-1064, 1093-1221, 1351-1539;
    /repo/src/lisp/numbers.c:3439-3471, 3639-3705, 3781-3829, 4003-4023.

    Text is a list of code points; the reader's input is what is left of it.  Values: fixnums
    and bigints, strings, packets, characters, symbols, OIDs, the booleans, the empty list,
    pairs and vectors.  Limits on the printed length (kno_unparse_maxchars, -maxelts) and
    the separator of digits are at their defaults (-1).  The libu8 functions u8_isupper,
    u8_tolower, u8_isspace and u8_write_base64 are parameters; u8_putc writes every code
    point including 0, and u8_ungetc at the end of input has no effect.  Syntax that is not
    modelled (OIDs followed by a name, choices, tables, records, character names, entities, comments in bars,
    rationals, flonums, other constants) gives [Unk], not an error.  Not modelled: symbol
    names with NUL characters, memory, error details. *)

From Coq Require Export ZArith.
From Coq Require Import Strings.String Strings.Ascii.
From Verif Require Export TextModel.
Local Open Scope N_scope.

(** The codes of an ASCII string, to write names below. *)
Fixpoint codes (s : string) : list N :=
  match s with
  | EmptyString => []
  | String a r => N_of_ascii a :: codes r
  end.

Inductive pv :=
| PFix (z : Z) | PBig (z : Z) | PStr (s : list N) | PPkt (b : list N) | PChar (c : N)
| PSym (n : list N) | POid (a : N) | PTrue | PFalse | PNil
| PPair (a d : pv) | PVec (l : list pv).

(** spacecharp, atombreakp, parse.c:51-53, unparse.c:39-40. *)
Definition atombreakp (c : N) : bool :=
  (c =? 0) || (c <? 128) && (isspace c || strchr (codes "{}()[]#""',`") c).
(** KNO_MAX_FIXNUM, ptr.h:649 (62-bit fixnums); KNO_MIN_FIXNUM is its opposite. *)
Definition max_fixnum : Z := 2305843009213693951.

(** ** Printing numbers *)

(** Decimal digits, most significant first ("%lld" of a non-negative number; for bigints
    the digits of kno_bigint_to_digit_stream in base 10, output_bigint,
    numbers.c:3447-3455). *)
Fixpoint dec_loop (fuel : nat) (n : N) (acc : list N) : list N :=
  match fuel with
  | O => acc
  | S f => let acc' := 48 + n mod 10 :: acc in
           if n / 10 =? 0 then acc' else dec_loop f (n / 10) acc'
  end.
Definition dec (n : N) : list N := dec_loop (S (N.size_nat n)) n [].
(** kno_unparse of a fixnum, unparse.c:364-369; output_bigint, numbers.c:3439-3471. *)
Definition dec_z (z : Z) : list N :=
  if (z <? 0)%Z then 45 :: dec (Z.to_N (- z)) else dec (Z.to_N z).

(** ** Reading numbers *)

(** scan_number, numbers.c:3639-3660, in base 10 on ASCII text after the sign: the result
    (1, 0 or -1) and the digits copied.  [after]: after_sep. *)
Fixpoint scan_digits (s : list N) (after : bool) : Z * list N :=
  match s with
  | [] => (1%Z, [])
  | c :: r =>
    if c =? 95 then if after then ((-1)%Z, []) else scan_digits r true
    else if isdigit c then let (f, ds) := scan_digits r false in (f, c :: ds)
    else (0%Z, [])
  end.
Definition digits_value (ds : list N) : N := fold_left (fun a c => a * 10 + (c - 48)) ds 0.

(** The result of kno_parse_number: a number, KNO_FALSE, or not modelled. *)
Inductive nr := NNum (v : pv) | NFalse | NUnk.
(** parse_number (numbers.c:3781-3829) and numeric_atom (3662-3705) on text beginning with
    a digit, or with a sign or point and a digit.  [stale]: errno is neither 0 nor ERANGE
    when numeric_atom calls strtoll, which does not clear it (3673-3674, 3683).  Complex
    numbers, rationals, hexadecimal and floating point syntax and non-ASCII text: [NUnk]. *)
Definition numeric_atom (stale : bool) (s : list N) : nr :=
  let (neg, body) := match s with
                     | 45 :: r => (true, r)
                     | 43 :: r => (false, r)
                     | _ => (false, s)
                     end in
  let (f, ds) := scan_digits body false in
  if (f =? 0)%Z then NUnk
  else match ds with
       | [] => NFalse
       | _ =>
         let v := if neg then (- Z.of_N (digits_value ds))%Z else Z.of_N (digits_value ds) in
         if (v =? 0)%Z then NNum (PFix 0)
         else if (v <? max_fixnum)%Z && (- max_fixnum <? v)%Z then NNum (PFix v)
         else if stale && (- 9223372036854775808 <=? v)%Z && (v <=? 9223372036854775807)%Z
         then NFalse
         else NNum (PBig v)
       end.
Definition ends_in_i (s : list N) : bool :=
  match rev s with c :: _ => (c =? 105) || (c =? 73) | [] => false end.
Definition hex_prefix (s : list N) : bool :=
  match s with
  | a :: b :: _ => (a =? 48) && ((b =? 120) || (b =? 88))
  | _ => false
  end.
Definition parse_number (stale : bool) (s : list N) : nr :=
  if existsb (fun c => 128 <=? c) s || ends_in_i s || existsb (N.eqb 47) s || hex_prefix s
  then NUnk
  else numeric_atom stale s.

Section Text.
  (** u8_isupper, u8_tolower, u8_isspace, u8_write_base64 of libu8. *)
  Variable isupper8 : N -> bool.
  Variable tolower8 : N -> N.
  Variable isspace8 : N -> bool.
  Variable b64 : list N -> list N.
  (** kno_packet_outfmt, unparse.c:48; see [parse_number] for [stale]. *)
  Variable outfmt : Z.
  Variable stale : bool.

  (** ** The printer *)

  (** The test of emit_symbol_name, unparse.c:68-73. *)
  Definition needs_protection (n : list N) : bool :=
    existsb (fun c => atombreakp c || (isupper8 c && negb (tolower8 c =? c))) n.
  (** unparse.c:80-92 (byte by byte; bytes above 0x7F are no control characters). *)
  Definition bar_char (c : N) : list N :=
    if (c =? 92) || (c =? 124) then [92; c]
    else if iscntrl c then 92 :: octal3 c
    else [c].
  (** emit_symbol_name, unparse.c:63-97. *)
  Definition emit_symbol_name (n : list N) : list N :=
    match n with
    | [] => [124; 124]
    | _ => if needs_protection n then 124 :: flat_map bar_char n ++ [124] else n
    end.

  (** escape_string, unparse.c:114-158, with ascii == 0 and no limit, one character. *)
  Definition esc_char (c : N) : list N :=
    if c =? 34 then [92; 34]
    else if c =? 92 then [92; 92]
    else if c =? 10 then [92; 110]
    else if c =? 9 then [92; 116]
    else if c =? 13 then [92; 114]
    else if iscntrl c then 92 :: octal3 c
    else [c].
  (** unparse_string, unparse.c:160-165. *)
  Definition unparse_string (s : list N) : list N := 34 :: flat_map esc_char s ++ [34].

  (** get_packet_base, unparse.c:173-186. *)
  Definition get_packet_base (b : list N) : Z :=
    if (outfmt =? 16)%Z || (outfmt =? 64)%Z || (outfmt =? 8)%Z then outfmt
    else
      let weird := length (filter (fun c => (128 <=? c) || iscntrl c) b) in
      if (length b <? weird * 4)%nat then 16%Z else 8%Z.
  (** unparse.c:224-234. *)
  Definition pkt_char (c : N) : list N :=
    if c =? 34 then [92; 34]
    else if c =? 92 then [92; 92]
    else if c =? 10 then [92; 110]
    else if c =? 13 then [92; 114]
    else if c =? 9 then [92; 116]
    else if (127 <=? c) || (c <? 32) then 92 :: octal3 c
    else [c].
  (** kno_unparse_packet, unparse.c:188-239, without a limit. *)
  Definition unparse_packet (b : list N) (base : Z) : list N :=
    if (base =? 16)%Z then codes "#X""" ++ flat_map (hex2 false) b ++ [34]
    else if (base =? 64)%Z then codes "#@""" ++ b64 b ++ [34]
    else codes "#""" ++ flat_map pkt_char b ++ [34].

  (** kno_unparse of a character, unparse.c:378-383. *)
  Definition unparse_char (c : N) : list N :=
    if (c <? 128) && isalnum c then [35; 92; c] else [35; 92; 117] ++ hex4 c.

  (** The prefixes of unparse_pair, unparse.c:273-277. *)
  Definition quote_prefix (n : list N) : option (list N) :=
    if list_eq_dec N.eq_dec n (codes "quote") then Some (codes "'")
    else if list_eq_dec N.eq_dec n (codes "quasiquote") then Some (codes "`")
    else if list_eq_dec N.eq_dec n (codes "unquote") then Some (codes ",")
    else if list_eq_dec N.eq_dec n (codes "unquote*") then Some (codes ",@")
    else if list_eq_dec N.eq_dec n (codes "comment") then Some (codes "#;")
    else None.
  Definition car_prefix (a : pv) : option (list N) :=
    match a with PSym n => quote_prefix n | _ => None end.

  (** kno_unparse, unparse.c:353-439; unparse_pair, 263-305 (no limit on elements);
      unparse_vector, 307-325; constants by their names ("#t", "#f", "()"). *)
  Fixpoint unparse (v : pv) : list N :=
    match v with
    | PFix z | PBig z => dec_z z
    | PStr s => unparse_string s
    | PPkt b => unparse_packet b (get_packet_base b)
    | PChar c => unparse_char c
    | PSym n => emit_symbol_name n
    | POid a => print_oid a
    | PTrue => codes "#t"
    | PFalse => codes "#f"
    | PNil => codes "()"
    | PPair a d =>
      let plain :=
        40 :: unparse a
        ++ (fix tail (d : pv) : list N :=
              match d with
              | PPair x r => 32 :: unparse x ++ tail r
              | PNil => [41]
              | _ => codes " . " ++ unparse d ++ [41]
              end) d in
      match car_prefix a, d with
      | Some p, PPair x PNil => p ++ unparse x
      | _, _ => plain
      end
    | PVec l =>
      codes "#("
      ++ (fix elts (first : bool) (l : list pv) : list N :=
            match l with
            | [] => [41]
            | x :: r => (if first then [] else [32]) ++ unparse x ++ elts false r
            end) true l
    end.

  (** ** The reader *)

  (** Result of a parsing function: a value and what is left of the input, KNO_EOX, some
      other error, or syntax that is not modelled. *)
  Inductive pr := Got (v : pv) (rest : list N) | Eox | Bad | Unk.

  (** skip_whitespace, parse.c:82-100; [comment]: inside a comment to the end of line.
      Block comments: [WUnk]. *)
  Inductive wr := WAt (s : list N) | WEnd | WUnk.
  Fixpoint skip_ws (comment : bool) (s : list N) : wr :=
    match s with
    | [] => WEnd
    | c :: r =>
      if comment then skip_ws (negb (c =? 10)) r
      else if isspace c then skip_ws false r
      else if c =? 59 then skip_ws true r
      else if c =? 35 then match r with
                           | [] => WAt s
                           | d :: _ => if d =? 124 then WUnk else WAt s
                           end
      else WAt s
    end.

  (** read_escape, parse.c:257-316, after the backslash: a code point, -1, or not modelled
      (\x, \U, \u{...}, entities, non-ASCII text after a digit or u).  sscanf("%o") reads
      octal digits as far as they go. *)
  Inductive er := EGot (c : N) (rest : list N) | EFail | EUnk.
  Definition odigit (c : N) : bool := (48 <=? c) && (c <=? 55).
  Definition scan_octal (a b c : N) : N :=
    if odigit b then if odigit c then ((a - 48) * 8 + (b - 48)) * 8 + (c - 48)
                     else (a - 48) * 8 + (b - 48)
    else a - 48.
  Definition read_escape (s : list N) : er :=
    match s with
    | [] => EFail
    | c :: r =>
      if c =? 116 then EGot 9 r
      else if c =? 110 then EGot 10 r
      else if c =? 114 then EGot 13 r
      else if c =? 102 then EGot 12 r
      else if c =? 98 then EGot 8 r
      else if c =? 118 then EGot 11 r
      else if c =? 97 then EGot 7 r
      else if (c =? 120) || (c =? 85) || (c =? 38) then EUnk
      else if c =? 117 then
        match r with
        | a1 :: a2 :: a3 :: a4 :: r' =>
          if (128 <=? a1) || (128 <=? a2) || (128 <=? a3) || (128 <=? a4) || (a1 =? 123)
          then EUnk
          else match xdigit a1, xdigit a2, xdigit a3, xdigit a4 with
               | Some x1, Some x2, Some x3, Some x4 =>
                 EGot (((x1 * 16 + x2) * 16 + x3) * 16 + x4) r'
               | _, _, _, _ => EFail
               end
        | _ => EUnk
        end
      else if (48 <=? c) && (c <=? 51) then
        match r with
        | a :: b :: r' =>
          if (128 <=? a) || (128 <=? b) || (a =? 0) || (b =? 0) then EUnk
          else EGot (scan_octal c a b) r'
        | _ => EFail
        end
      else EGot c r
    end.

  (** copy_atom with normcase, parse.c:399-417: the text and what is left.  An escape that
      fails has -1 written to the output: not modelled.  (Fuel: the input's length.) *)
  Inductive ar := AGot (t rest : list N) | AUnk.
  Fixpoint ca_loop (k : nat) (s : list N) (vbar : bool) (acc : list N) : ar :=
    match k with
    | O => AUnk
    | S k' =>
      match s with
      | [] => AGot (rev acc) []
      | c :: r =>
        if vbar || negb (atombreakp c) then
          if c =? 124 then ca_loop k' r (negb vbar) acc
          else if c =? 92 then
            match read_escape r with
            | EGot x r' => ca_loop k' r' vbar (x :: acc)
            | _ => AUnk
            end
          else if vbar then ca_loop k' r vbar (c :: acc)
          else ca_loop k' r vbar (tolower8 c :: acc)
        else AGot (rev acc) s
      end
    end.
  Definition copy_atom (s : list N) : ar :=
    match s with
    | c :: r => if c =? 124 then ca_loop (S (length r)) r true []
                else ca_loop (S (length s)) s false []
    | [] => ca_loop 1 [] false []
    end.

  (** kno_parse_atom, parse.c:419-468, for text that does not begin with "#". *)
  Definition numeric_start (t : list N) : bool :=
    match t with
    | [] => false
    | c :: r => isdigit c || ((c =? 43) || (c =? 45) || (c =? 46))
                             && match r with d :: _ => isdigit d | [] => false end
    end.
  Definition parse_atom_text (t rest : list N) : pr :=
    match t with
    | [] => Eox
    | c :: _ =>
      if c =? 35 then Unk
      else if numeric_start t then
        match parse_number stale t with
        | NNum v => Got v rest
        | NFalse => Got (PSym t) rest
        | NUnk => Unk
        end
      else Got (PSym t) rest
    end.
  (** parse_atom(in,-1,-1,1), parse.c:1522-1539. *)
  Definition parse_atom (s : list N) : pr :=
    match copy_atom s with
    | AGot t rest => parse_atom_text t rest
    | AUnk => Unk
    end.
  (** parse_atom(in,'#',ch,1) for the two constants. *)
  Definition parse_hash_atom (ch : N) (s : list N) : pr :=
    match copy_atom s with
    | AGot t rest =>
      let full := tolower8 35 :: tolower8 ch :: t in
      if list_eq_dec N.eq_dec full (codes "#t") then Got PTrue rest
      else if list_eq_dec N.eq_dec full (codes "#f") then Got PFalse rest
      else Unk
    | AUnk => Unk
    end.

  (** parse_character, parse.c:472-511, after "#\"; character names and entities, and the
      end of the input, are not modelled, but no entity and no character name consists of u
      and five or more hexadecimal digits; parse_unicode_escape, 221-252. *)
  Fixpoint take_atom (s : list N) : list N * list N :=
    match s with
    | [] => ([], [])
    | c :: r => if atombreakp c then ([], s)
                else let (t, rest) := take_atom r in (c :: t, rest)
    end.
  Definition parse_character (s : list N) : pr :=
    match s with
    | [] => Unk
    | c :: r =>
      if c =? 38 then Unk
      else if ispunct c then Got (PChar c) r
      else
        match take_atom s with
        | ([], _) => Got (PChar c) r
        | ([x], rest) => Got (PChar x) rest
        | ([u; a1; a2; a3; a4], rest) =>
          if u =? 117 then
            match xdigit a1, xdigit a2, xdigit a3, xdigit a4 with
            | Some x1, Some x2, Some x3, Some x4 =>
              Got (PChar (((x1 * 16 + x2) * 16 + x3) * 16 + x4)) rest
            | _, _, _, _ => Unk
            end
          else Unk
        | (u :: l, _) =>
          if (u =? 117) && (5 <=? length l)%nat
             && forallb (fun c => match xdigit c with Some _ => true | None => false end) l
          then Bad else Unk
        end
    end.

  (** parse_string, parse.c:706-733, after the opening quote.  After a backslash and a
      newline the blanks are skipped and the next character is taken as it is. *)
  Fixpoint drop_space8 (s : list N) : list N :=
    match s with
    | c :: r => if isspace8 c then drop_space8 r else s
    | [] => []
    end.
  Fixpoint str_loop (k : nat) (s : list N) (acc : list N) : pr :=
    match k with
    | O => Unk
    | S k' =>
      match s with
      | [] => Bad
      | c :: r =>
        if c =? 34 then Got (PStr (rev acc)) r
        else if c =? 92 then
          match r with
          | [] => Bad
          | d :: r0 =>
            if d =? 10 then
              match drop_space8 r0 with
              | x :: r' => str_loop k' r' (x :: acc)
              | [] => Unk
              end
            else match read_escape r with
                 | EGot x r' => str_loop k' r' (x :: acc)
                 | EFail => Bad
                 | EUnk => Unk
                 end
          end
        else str_loop k' r (c :: acc)
      end
    end.
  Definition parse_string (s : list N) : pr := str_loop (S (length s)) s [].

  (** parse_text_packet, parse.c:884-975, after the opening quote; odigitp (50) accepts the
      digit 8. *)
  Definition odigitp (c : N) : bool := (48 <=? c) && (c <=? 56).
  Definition pkt_escape (c : N) : option N :=
    if c =? 92 then Some 92
    else if c =? 97 then Some 7
    else if (c =? 102) || (c =? 108) then Some 12
    else if (c =? 104) || (c =? 98) then Some 8
    else if c =? 110 then Some 10
    else if c =? 116 then Some 9
    else if c =? 114 then Some 13
    else if c =? 122 then Some 26
    else if c =? 35 then Some 35
    else None.
  Fixpoint pkt_loop (k : nat) (s : list N) (acc : list N) : pr :=
    match k with
    | O => Unk
    | S k' =>
      match s with
      | [] => Eox
      | c :: r =>
        if c =? 34 then Got (PPkt (rev acc)) r
        else if 128 <=? c then Bad
        else if c =? 92 then
          match r with
          | [] => Unk
          | e :: r1 =>
            if e =? 10 then pkt_loop k' (drop_space8 r1) acc
            else match pkt_escape e with
                 | Some x => pkt_loop k' r1 (x :: acc)
                 | None =>
                   if e =? 120 then
                     match r1 with
                     | a :: b :: r2 =>
                       match xdigit a, xdigit b with
                       | Some x, Some y => pkt_loop k' r2 (x * 16 + y :: acc)
                       | _, _ => Bad
                       end
                     | _ => Eox
                     end
                   else if (48 <=? e) && (e <=? 51) then
                     match r1 with
                     | [] => Eox
                     | a :: r2 =>
                       if odigitp a then
                         match r2 with
                         | [] => Eox
                         | b :: r3 =>
                           if odigitp b then pkt_loop k' r3 (scan_octal e a b :: acc)
                           else Bad
                         end
                       else Bad
                     end
                   else if e <? 128 then pkt_loop k' r1 (e :: acc)
                   else Unk
                 end
          end
        else pkt_loop k' r (c :: acc)
      end
    end.
  Definition parse_text_packet (s : list N) : pr := pkt_loop (S (length s)) s [].

  (** parse_hex_packet, parse.c:977-1007, after the opening quote. *)
  Fixpoint hex_pkt_loop (s : list N) (acc : list N) : pr :=
    match s with
    | [] => Eox
    | c :: r =>
      match xdigit c with
      | None => if c =? 34 then Got (PPkt (rev acc)) r else Bad
      | Some x =>
        match r with
        | [] => Eox
        | d :: r' =>
          match xdigit d with
          | None => if d =? 34 then Got (PPkt (rev acc)) r' else Bad
          | Some y => hex_pkt_loop r' (x * 16 + y :: acc)
          end
        end
      end
    end.

  (** The loop of parse_list, parse.c:1167-1210, after the first element: the rest of the
      list and what is left.  (Fuel [k]: the input's length.) *)
  Fixpoint list_loop (p : list N -> pr) (k : nat) (s : list N) : pr :=
    match k with
    | O => Unk
    | S k' =>
      match skip_ws false s with
      | WEnd => Eox
      | WUnk => Unk
      | WAt [] => Eox
      | WAt (c :: r) =>
        if c =? 41 then Got PNil r
        else if (c =? 46) && match r with d :: _ => isspace8 d | [] => false end then
          match p r with
          | Got t r' =>
            match skip_ws false r' with
            | WAt (d :: r'') => if d =? 41 then Got t r'' else Bad
            | WUnk => Unk
            | _ => Bad
            end
          | e => e
          end
        else
          match p (c :: r) with
          | Got a r' =>
            match list_loop p k' r' with
            | Got d r'' => Got (PPair a d) r''
            | e => e
            end
          | e => e
          end
      end
    end.
  (** parse_list, parse.c:1142-1211, after the opening parenthesis. *)
  Definition parse_list (p : list N -> pr) (s : list N) : pr :=
    match skip_ws false s with
    | WEnd => Eox
    | WUnk => Unk
    | WAt [] => Eox
    | WAt (c :: r) =>
      if c =? 41 then Got PNil r
      else if c =? 93 then Bad
      else match p (c :: r) with
           | Got a r' =>
             match list_loop p (S (length r')) r' with
             | Got d r'' => Got (PPair a d) r''
             | e => e
             end
           | e => e
           end
    end.
  (** parse_vec with end character ")", parse.c:1093-1140, as called by parse_vector,
      1213-1221: every failure is KNO_PARSE_ERROR. *)
  Fixpoint vec_loop (p : list N -> pr) (k : nat) (s : list N) : pr :=
    match k with
    | O => Unk
    | S k' =>
      match skip_ws false s with
      | WEnd => Bad
      | WUnk => Unk
      | WAt [] => Bad
      | WAt (c :: r) =>
        if c =? 41 then Got (PVec []) r
        else if (c =? 93) || (c =? 125) then Bad
        else match p (c :: r) with
             | Got a r' =>
               match vec_loop p k' r' with
               | Got (PVec l) r'' => Got (PVec (a :: l)) r''
               | Got _ _ => Unk
               | e => e
               end
             | Unk => Unk
             | _ => Bad
             end
      end
    end.

  (** A two-element list of a symbol and what was read. *)
  Definition quoted (name : string) (r : pr) : pr :=
    match r with
    | Got x rest => Got (PPair (PSym (codes name)) (PPair x PNil)) rest
    | e => e
    end.

  (** kno_parser, parse.c:1351-1520; OIDs (1367) as in OidsModel, what is an error or not
      modelled there is not modelled here.  (Fuel: the depth of nesting.) *)
  Fixpoint parser (n : nat) (s : list N) : pr :=
    match n with
    | O => Unk
    | S n' =>
      match skip_ws false s with
      | WEnd => Eox
      | WUnk => Unk
      | WAt [] => Eox
      | WAt (c :: r) =>
        if (c =? 41) || (c =? 93) || (c =? 125) then Bad
        else if c =? 34 then parse_string r
        else if c =? 40 then parse_list (parser n') r
        else if c =? 64 then
          match parse_oid (c :: r) with POk a rest => Got (POid a) rest | _ => Unk end
        else if (c =? 123) || (c =? 91) then Unk
        else if c =? 39 then quoted "quote" (parser n' r)
        else if c =? 96 then quoted "quasiquote" (parser n' r)
        else if c =? 44 then
          match r with
          | d :: r' => if d =? 64 then quoted "unquote*" (parser n' r')
                       else quoted "unquote" (parser n' r)
          | [] => Eox
          end
        else if c =? 124 then
          match copy_atom (c :: r) with AGot t rest => Got (PSym t) rest | AUnk => Unk end
        else if c =? 35 then
          match r with
          | [] => Unk
          | ch :: r' =>
            if ch =? 40 then vec_loop (parser n') (S (length r')) r'
            else if ch =? 34 then parse_text_packet r'
            else if ch =? 59 then quoted "comment" (parser n' r')
            else if ch =? 92 then parse_character r'
            else if (ch =? 88) || (ch =? 120) then
              match r' with
              | q :: r'' => if q =? 34 then hex_pkt_loop r'' [] else Unk
              | [] => Unk
              end
            else if (ch =? 116) || (ch =? 102) then parse_hash_atom ch r'
            else if ch =? 64 then
              (* read_char_macro, 177-194, which stops at a quote *)
              match r' with
              | q :: _ => if q =? 34 then quoted "#@" (parser n' r') else Unk
              | [] => Unk
              end
            else Unk
          end
        else parse_atom (c :: r)
      end
    end.
  (** kno_parse, parse.c:1729-1743 (KNO_BLANK_PARSE does not arise in the syntax modelled):
      the first expression of the text. *)
  Definition parse (s : list N) : pr := parser (S (2 * length s)) s.
End Text.

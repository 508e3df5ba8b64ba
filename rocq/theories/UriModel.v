(** * URI encoding and decoding, form encoding, query strings.

    Source: /repo/src/web/uriprims.c:217-233, 534-584, 604-708,
    /repo/src/web/cgiexec.c:66-93, 313-399.

    Strings and packets are lists of bytes.  Not modelled: values that are neither strings,
    symbols nor packets (they are printed first), secrets, the libu8 functions
    (u8_valid_copy of a value with bytes above 0x7F appears as a flag), buffer growth,
    reference counts. *)

From Verif Require Export TextModel.
Local Open Scope N_scope.

(** The test of uri_output, uriprims.c:222-227; [None] is escape == NULL. *)
Definition uri_escaped (escape : option (list N)) (c : N) : bool :=
  (128 <=? c) || isspace c || (c =? 43) || (c =? 37) || (c =? 61) || (c =? 38)
  || (c =? 35) || (c =? 59)
  || match escape with
     | None => negb (isalnum c || strchr [45; 95; 46; 126] c)
     | Some e => strchr e c
     end.
(** uri_output, uriprims.c:217-233, with len >= 0 (all of [s]); with len < 0 it is called
    on [until0 s]. *)
Fixpoint uri_output (upper : bool) (escape : option (list N)) (s : list N) : list N :=
  match s with
  | [] => []
  | c :: r => (if uri_escaped escape c then 37 :: hex2 upper c else [c])
              ++ uri_output upper escape r
  end.
(** uriencode_prim, uriprims.c:604-629, on the bytes of a string, symbol name or packet:
    always through NUL-terminated text (lines 609-617, 622-623). *)
Definition uriencode (s : list N) (escape : option (list N)) (upper : bool) : list N :=
  uri_output upper escape (until0 s).

(** uridecode_prim, uriprims.c:678-701, and xdigit_weight, 703-708; [None] is the error
    "Invalid encoded URI".  A percent sign within two bytes of the end makes the code read
    the NUL after the string, which is not a hexadecimal digit. *)
Fixpoint uridecode (s : list N) : option (list N) :=
  match s with
  | [] => Some []
  | c :: r =>
    if c =? 37 then
      match r with
      | a :: b :: r' =>
        match xdigit a, xdigit b with
        | Some x, Some y =>
          match uridecode r' with Some t => Some ((x * 16 + y) mod 256 :: t) | None => None end
        | _, _ => None
        end
      | _ => None
      end
    else match uridecode r with Some t => Some (c :: t) | None => None end
  end.

(** add_query_param, uriprims.c:534-584, for a name that is a string or symbol and string
    or packet values ([vals] lists the elements of the value in the order of DO_CHOICES).
    [lastc] is read once, before the loop, and is -1 from the second value on (line 581). *)
Definition last_byte (out : list N) : option N :=
  match rev out with [] => None | c :: _ => Some c end.
Definition param_sep (lastc : option N) : list N :=
  match lastc with
  | None => []
  | Some c => if (c =? 63) || (c =? 38) then [] else [38]
  end.
Fixpoint add_values (out : list N) (lastc : option N) (name : list N) (vals : list (list N))
  : list N :=
  match vals with
  | [] => out
  | v :: r =>
    add_values (out ++ param_sep lastc ++ uri_output false None (until0 name) ++ [61]
                ++ uri_output false None v) None name r
  end.
Definition add_query_param (out name : list N) (vals : list (list N)) : list N :=
  add_values out (last_byte out) name vals.
(** form_encode_prim, uriprims.c:646-666: the keys in the order of DO_CHOICES, each with
    its values. *)
Definition form_encode (l : list (list N * list (list N))) : list N :=
  fold_left (fun out p => add_query_param out (fst p) (snd p)) l [].

(** What parse_query_string does to the request and parameter tables: [QParam n vis v asc]
    is add_param (cgiexec.c:313-324) with slotstring [n] ([None]: VOID), a slotid if [vis],
    and the value with bytes [v], taken as ASCII if [asc]; [QSlot n] is the addition of the
    empty string at lines 391-393 under the slotid made of [n]. *)
Inductive qevent :=
| QParam (name : option (list N)) (vis : bool) (val : list N) (asc : bool)
| QSlot (name : list N).

(** strtol(buf,NULL,16) of two characters and its conversion to a byte, cgiexec.c:368-374;
    the flag tells whether the number was at least 0x80 (a negative one is not). *)
Definition strtol2 (a b : N) : N * bool :=
  match xdigit a, xdigit b with
  | Some x, Some y => (16 * x + y, 128 <=? 16 * x + y)
  | Some x, None => (x, false)
  | None, Some y =>
    if isspace a || (a =? 43) then (y, false)
    else if a =? 45 then ((256 - y) mod 256, false)
    else (0, false)
  | None, None => (0, false)
  end.

Section Query.
  (** isprotected, cgiexec.c:123-131, as a test on the name. *)
  Variable protected : list N -> bool.
  Fixpoint prefixed (p s : list N) : bool :=
    match p, s with
    | [], _ => true
    | a :: p', b :: s' => (a =? b) && prefixed p' s'
    | _ :: _, [] => false
    end.
  (** cgiexec.c:345-353: which names get a slotid ("_", "HTTP_", "SERVER_" do not). *)
  Definition visible (n : list N) : bool :=
    negb (prefixed [95] n || prefixed [72;84;84;80;95] n || prefixed [83;69;82;86;69;82;95] n)
    && negb (protected n).

  (** parse_query_string, cgiexec.c:326-399.  [ss]: slotstring; [sid]: the name slotid was
      made of ([None]: VOID); [buf]: the bytes written, last first; [asc]: isascii. *)
  Fixpoint pq_loop (s : list N) (ss sid : option (list N)) (buf : list N) (asc : bool)
    : list qevent :=
    let finish :=
      match buf with
      | _ :: _ => [QParam ss (match sid with Some _ => true | None => false end)
                          (until0 (rev buf)) asc]
      | [] => match sid with Some n => [QSlot n] | None => [] end
      end in
    match s with
    | [] => finish
    | c :: r =>
      if (c =? 61) && (match sid with None => true | Some _ => false end) then
        let n := until0 (rev buf) in
        pq_loop r (Some n) (if visible n then Some n else None) [] true
      else if c =? 38 then
        QParam ss (match sid with Some _ => true | None => false end) (until0 (rev buf)) asc
        :: pq_loop r ss None [] true
      else if c =? 37 then
        match r with
        | a :: b :: r' =>
          let (v, hi) := strtol2 a b in
          pq_loop r' ss sid (v :: buf) (if hi then false else asc)
        | _ => finish
        end
      else if c =? 43 then pq_loop r ss sid (32 :: buf) asc
      else pq_loop r ss sid (c :: buf) (if c <? 128 then asc else false)
    end.
  Definition parse_query (s : list N) : list qevent := pq_loop s None None [] true.
End Query.

(** * Named constants.

    Source: /repo/src/lisp/cons.c:48-145, /repo/src/lisp/parse.c:323-391,
    /repo/include/kno/ptr.h:744-777.  Names are ASCII strings (the code passes them
    through the Unicode case and letter functions of libu8). *)
From Coq Require Import String Ascii.
From Verif Require Import BytesModel.
Local Open Scope string_scope.
Local Open Scope N_scope.
Local Open Scope list_scope.

(** KNO_CONSTANT, ptr.h:746: an immediate pointer. *)
Definition KNO_CONSTANT (i : N) : N := N.lor 1 (N.shiftl i 2).

(** The built-in constants, ptr.h:748-773. *)
Definition builtin_constants : list N := map (fun i => KNO_CONSTANT (N.of_nat i)) (seq 0 26).
Definition KNO_BLANK_PARSE : N := KNO_CONSTANT 25.
(** ptr.h:777. *)
Definition KNO_N_BUILTIN_CONSTANTS : nat := 25.

(** u8_isalnum, u8_tolower on ASCII. *)
Definition code (c : ascii) : N := N_of_ascii c.
Definition is_upper (c : ascii) : bool := (65 <=? code c) && (code c <=? 90).
Definition is_lower (c : ascii) : bool := (97 <=? code c) && (code c <=? 122).
Definition is_digit (c : ascii) : bool := (48 <=? code c) && (code c <=? 57).
Definition to_lower (c : ascii) : ascii := if is_upper c then ascii_of_N (code c + 32) else c.
Definition is_alnum (c : ascii) : bool := is_upper c || is_lower c || is_digit c.
Fixpoint smap (f : ascii -> ascii) (s : string) : string :=
  match s with EmptyString => EmptyString | String c r => String (f c) (smap f r) end.
Definition strip_hash (s : string) : string :=
  match s with String c r => if Ascii.eqb c "#" then r else s | EmptyString => s end.
(** strcasecmp (C locale) = 0. *)
Definition same_name (a b : string) : bool := String.eqb (smap to_lower a) (smap to_lower b).

(** The name table of the parser: a sorted vector of pairs used as a map (kno_sortvec_get,
    kno_sortvec_insert; the vector operations are the subject of the Tables module). *)
Definition nametable := list (string * N).
Fixpoint nt_get (t : nametable) (k : string) : option N :=
  match t with [] => None | (k', v) :: r => if String.eqb k' k then Some v else nt_get r k end.
Definition nt_put (t : nametable) (k : string) (v : N) : nametable := (k, v) :: t.
(** lookup_constname, parse.c:333-353. *)
Definition lookup_constname (t : nametable) (s : string) : option N := nt_get t (smap to_lower (strip_hash s)).
(** kno_add_constname, parse.c:356-391: the table and the result. *)
Definition normal_name (s : string) : string :=
  smap (fun c => if is_alnum c then to_lower c else "_"%char) (strip_hash s).
Definition add_constname (t : nametable) (s : string) (v : N) : nametable * Z :=
  match lookup_constname t s with
  | Some cur => (t, if cur =? v then 0%Z else (-1)%Z)
  | None => (nt_put t (normal_name s) v, 1%Z)
  end.

(** kno_constant_names (512 entries), kno_n_constants, the name table, the holder of
    constant_registry_lock. *)
Record consts := { cn_names : list (option string); cn_n : nat; cn_table : nametable; cn_lock : option nat }.

Definition builtin_names : list string :=
  ["#void"; "#f"; "#t"; "{}"; "()"; "#default"; "#tailcall"; "#eod"; "#eof"; "#eox"; "#bad_dtype"; "#bad_parse"; "#oom";
   "#type_error"; "#range_error"; "#error"; "#badptr"; "#throw"; "#break"; "#unbound"; "#neverseen"; "#lockholder"; "#preoid";
   "#qvoid"; "#required"; "#blank"].
(** The state after kno_init_cons_c has entered the built-in names, cons.c:843-850. *)
Definition initial : consts :=
  let t := fold_left (fun t x => fst (add_constname t (fst x) (snd x))) (combine builtin_names builtin_constants) [] in
  let t := fold_left (fun t x => fst (add_constname t (fst x) (snd x)))
    [("#true", KNO_CONSTANT 2); ("#false", KNO_CONSTANT 1); ("#empty", KNO_CONSTANT 3); ("#dflt", KNO_CONSTANT 5)] t in
  {| cn_names := map Some builtin_names ++ repeat None 486; cn_n := KNO_N_BUILTIN_CONSTANTS; cn_table := t; cn_lock := None |}.

(** The search loop, cons.c:124-127: the index found, or None. *)
Fixpoint find_name (names : list (option string)) (n i : nat) (name : string) : option nat :=
  match n, names with
  | S n', Some s :: r => if same_name name s then Some i else find_name r n' (S i) name
  | S n', None :: r => find_name r n' (S i) name
  | _, _ => None
  end.
Fixpoint set_nth (l : list (option string)) (i : nat) (x : option string) : list (option string) :=
  match l, i with
  | [], _ => []
  | _ :: r, O => x :: r
  | y :: r, S i' => y :: set_nth r i' x
  end.

(** Results of a call. *)
Inductive cres := Const (c : N) | Conflict | Blocked | OutOfBounds.
(** kno_register_constant, cons.c:120-136, called by thread [t].  No path unlocks the
    mutex.  A thread that already holds it gets it again (otherwise the program would
    stop at its second registration, cons.c:907); any other thread waits. *)
Definition register (c : consts) (t : nat) (name : string) : consts * cres :=
  if (match cn_lock c with Some o => Nat.eqb o t | None => true end) then
    let locked := {| cn_names := cn_names c; cn_n := cn_n c; cn_table := cn_table c; cn_lock := Some t |} in
    match find_name (cn_names c) (cn_n c) 0 name with
    | Some i => (locked, Const (KNO_CONSTANT (N.of_nat i)))
    | None =>
      let k := KNO_CONSTANT (N.of_nat (cn_n c)) in
      let (tb, rv) := add_constname (cn_table c) name k in
      if (rv <? 0)%Z then (locked, Conflict)
      else if (cn_n c <? 512)%nat then
        ({| cn_names := set_nth (cn_names c) (cn_n c) (Some name); cn_n := S (cn_n c); cn_table := tb; cn_lock := Some t |}, Const k)
      else (locked, OutOfBounds)
    end
  else (c, Blocked).
(** kno_constant_name, cons.c:138-144. *)
Definition constant_name (c : consts) (k : N) : option string :=
  let off := N.shiftr k 2 in
  if off <? 256 then match nth_error (cn_names c) (N.to_nat off) with Some x => x | None => None end else None.

(** * Character classes and numerals shared by the text modules.

    Characters are their code points and bytes their values, both as [N].  The C library
    classes are those of the "C" locale restricted to what the callers pass: isspace,
    isxdigit and "%x" are in OidsModel.v. *)

From Verif Require Export OidsModel.
Local Open Scope N_scope.

(** isdigit, isupper, islower, isalnum, iscntrl, ispunct (ctype.h, "C" locale). *)
Definition isdigit (c : N) : bool := (48 <=? c) && (c <=? 57).
Definition isupper (c : N) : bool := (65 <=? c) && (c <=? 90).
Definition islower (c : N) : bool := (97 <=? c) && (c <=? 122).
Definition isalnum (c : N) : bool := isdigit c || isupper c || islower c.
Definition iscntrl (c : N) : bool := (c <? 32) || (c =? 127).
Definition ispunct (c : N) : bool := (32 <? c) && (c <? 127) && negb (isalnum c).

(** strchr(s,c) != NULL: the terminating NUL of [s] is found too. *)
Definition strchr (s : list N) (c : N) : bool := existsb (N.eqb c) s || (c =? 0).

(** The part of a buffer that code working on NUL-terminated text sees. *)
Fixpoint until0 (s : list N) : list N :=
  match s with
  | [] => []
  | c :: r => if c =? 0 then [] else c :: until0 r
  end.

(** A hexadecimal digit as printed by "%X". *)
Definition hexcharU (d : N) : N := if d <? 10 then 48 + d else 55 + d.
(** "%02X" (upper) and "%02x" of a byte. *)
Definition hex2 (upper : bool) (c : N) : list N :=
  let h := if upper then hexcharU else hexchar in [h (c / 16); h (c mod 16)].
(** "%04x" of a number below 2^64. *)
Definition hex4 (c : N) : list N :=
  let d := print_hex c in repeat 48 (4 - length d) ++ d.
(** "%03o" of a byte. *)
Definition octal3 (c : N) : list N := [48 + c / 64; 48 + c / 8 mod 8; 48 + c mod 8].

(** * Lisp values and their comparison.

    Source: /repo/include/kno/ptr.h, /repo/include/kno/cons.h:940-1068,
    /repo/src/lisp/compare.c, /repo/src/lisp/cons.c:231-300,
    /repo/src/lisp/numbers.c:2008-2031, 2421-2470, 2600-2672. *)

From Coq Require Export NArith ZArith List Bool Lia.
From Coq Require Import SpecFloat.
Export ListNotations.
Local Open Scope N_scope.

(** ** Numbers allocated on the heap *)

(** A real number as it occurs inside numbers: an integer (fixnum or bigint), a
    rational (numerator, denominator) or a flonum (a binary64 datum, in the
    standard library's reference representation [spec_float]). *)
Inductive real :=
| RInt (z : Z)
| RRat (n d : Z)
| RFlo (f : spec_float).
(** A heap number: a real that is not a fixnum, or a complex number. *)
Inductive num :=
| NReal (r : real)
| NCpx (re im : real).

(** ** Values

    [VAtom w]: a pointer that is not a CONS, i.e. an immediate (constant,
    character, symbol), a fixnum or an OID; [w] is the 64-bit word
    (ptr.h:97-160: KNO_ATOMICP).
    [VOther t a]: a heap object of a type without comparator, at address [a].
    Not represented: prechoices (an accumulator is normalised before it is
    compared, compare.c:87-106, 98-104 of choices.c), tables, timestamps, uuids,
    regexes, opaque compounds. *)
Inductive val :=
| VAtom (w : N)
| VNum (n : num)
| VStr (s : list N)
| VPacket (secret : bool) (s : list N)
| VPair (a b : val)
| VVec (l : list val)
| VChoice (l : list val)
| VQChoice (l : list val)
| VCompound (tag : val) (l : list val)
| VOther (t : N) (a : N).

(** KNO_ATOMICP, ptr.h. *)
Definition atomicp (x : val) : bool :=
  match x with VAtom _ => true | _ => false end.

(** Type codes, ptr.h:97-98, 163-222. *)
Definition typecode (x : val) : N :=
  match x with
  | VAtom _ => 0
  | VStr _ => 0x84
  | VPacket false _ => 0x85
  | VVec _ => 0x86
  | VPair _ _ => 0x88
  | VPacket true _ => 0x8A
  | VNum (NReal (RInt _)) => 0x8B
  | VChoice _ => 0x8C
  | VQChoice _ => 0x8E
  | VCompound _ _ => 0x90
  | VNum (NCpx _ _) => 0xA6
  | VNum (NReal (RRat _ _)) => 0xA7
  | VNum (NReal (RFlo _)) => 0xA8
  | VOther t _ => t
  end.
(** KNO_NUMBER_TYPEP, ptr.h:1105-1108, on heap values. *)
Definition numberp (x : val) : bool :=
  match x with VNum _ => true | _ => false end.

(** ** Doubles: numbers.c:2008-2027

    Conversion of an integer is the correctly rounded one (the C cast for
    fixnums; kno_bigint_to_double, numbers.c:721-733, rounds once per digit,
    which agrees for integers of at most two digits). *)
Definition z2d (z : Z) : spec_float := binary_normalize 53 1024 z 0 false.
Definition todouble_real (r : real) : spec_float :=
  match r with
  | RFlo f => f
  | RInt z => z2d z
  | RRat n d => SFdiv 53 1024 (z2d n) (z2d d)
  end.
Definition todouble (n : num) : spec_float :=
  match n with
  | NReal r => todouble_real r
  | NCpx re im =>
    SFsqrt 53 1024 (SFadd 53 1024 (SFmul 53 1024 (todouble_real re) (todouble_real re))
                                  (SFmul 53 1024 (todouble_real im) (todouble_real im)))
  end.

(** The C pattern [if (dx>dy) return 1; else if (dx<dy) return -1; else return 0]. *)
Definition dcompare (x y : spec_float) : comparison :=
  match SFcompare x y with Some c => c | None => Eq end.
(** [diff==0 ? 0 : diff>0 ? 1 : -1], numbers.c:2656-2659: an unordered difference
    is -1. *)
Definition dsign_strict (d : spec_float) : comparison :=
  match SFcompare d (S754_zero false) with
  | Some c => c | None => Lt end.
(** signum, numbers.c:2607-2611: an unordered value is 0. *)
Definition dsign (d : spec_float) : comparison := dcompare d (S754_zero false).

Definition isflo (n : num) : bool := match n with NReal (RFlo _) => true | _ => false end.

(** Sign of kno_subtract(x,y) for reals (numbers.c:2421-2470 and signum): exact
    for integers and rationals (exactness of the integer operations is the subject
    of the Numbers module), a double subtraction if either is a flonum.  The
    rational case signs the numerator and denominator product; denominators are
    kept positive. *)
Definition rat_parts (r : real) : Z * Z :=
  match r with RInt z => (z, 1%Z) | RRat n d => (n, d) | RFlo _ => (0%Z, 1%Z) end.
Definition sub_sign (x y : real) : comparison :=
  match x, y with
  | RFlo _, _ | _, RFlo _ => dsign (SFsub 53 1024 (todouble_real x) (todouble_real y))
  | _, _ =>
    let '(xn, xd) := rat_parts x in
    let '(yn, yd) := rat_parts y in
    Z.compare (xn * yd - yn * xd) 0
  end.

(** kno_numcompare, numbers.c:2639-2672, on heap numbers.  Line 2655 tests
    COMPLEXP(x) twice; when only [y] is complex the difference is complex and
    signum of it is 0 (line 2621). *)
Definition numcompare (x y : num) : comparison :=
  match x, y with
  | NReal (RFlo dx), NReal (RFlo dy) => dcompare dx dy
  | NCpx _ _, _ => dsign_strict (SFsub 53 1024 (todouble x) (todouble y))
  | _, _ =>
    let sgn := match x, y with
               | NReal rx, NReal ry => sub_sign rx ry
               | _, _ => Eq
               end in
    match sgn with
    | Eq => if isflo x || isflo y
            then if typecode (VNum x) <? typecode (VNum y) then Lt else Gt
            else Eq
    | s => s
    end
  end.

(** ** Byte strings *)

(** strncmp(x,y,n) on equal length arrays, sign only: stops at a difference, after
    [n] bytes or at a NUL byte. *)
Fixpoint strncmp (x y : list N) : comparison :=
  match x, y with
  | [], [] => Eq
  | [], _ => Lt | _, [] => Gt
  | a :: x', b :: y' =>
    match N.compare a b with
    | Eq => if a =? 0 then Eq else strncmp x' y'
    | c => c
    end
  end.
(** memcmp on equal length arrays, sign only. *)
Fixpoint memcmp (x y : list N) : comparison :=
  match x, y with
  | [], [] => Eq
  | [], _ => Lt | _, [] => Gt
  | a :: x', b :: y' =>
    match N.compare a b with Eq => memcmp x' y' | c => c end
  end.
Definition len_compare {A B : Type} (x : list A) (y : list B) : comparison :=
  Nat.compare (length x) (length y).

(** ** lispval_compare with flags = KNO_COMPARE_QUICK, compare.c:25-165

    The pointer tests [x == y] that return 0 early are dropped: the result is the
    same (a value compared with itself).  String comparison on equal lengths is
    strcmp, which agrees with strncmp over the length (the terminator is a NUL).
    Address comparison of VOther objects is the final [x>y] test. *)
Fixpoint qcompare (x y : val) {struct x} : comparison :=
  let list_cmp := fix list_cmp (l m : list val) {struct l} : comparison :=
    match l, m with
    | a :: l', b :: m' => match qcompare a b with Eq => list_cmp l' m' | c => c end
    | _, _ => Eq
    end in
  match x, y with
  | VAtom a, VAtom b => N.compare a b
  | VAtom _, _ => Lt
  | _, VAtom _ => Gt
  | VNum a, VNum b => numcompare a b
  | VNum _, _ => Lt
  | _, VNum _ => Gt
  | _, _ =>
    match N.compare (typecode x) (typecode y) with
    | Eq =>
      match x, y with
      | VPair a b, VPair c d => match qcompare a c with Eq => qcompare b d | r => r end
      | VStr s, VStr t => match len_compare s t with Eq => strncmp s t | r => r end
      | VPacket _ s, VPacket _ t => match len_compare s t with Eq => memcmp s t | r => r end
      | VVec l, VVec m => match len_compare l m with Eq => list_cmp l m | r => r end
      | VChoice l, VChoice m => match len_compare l m with Eq => list_cmp l m | r => r end
      | VQChoice l, VQChoice m => match len_compare l m with Eq => list_cmp l m | r => r end
      | VCompound t l, VCompound u m =>
        match qcompare t u with
        | Eq => match len_compare l m with Eq => list_cmp l m | r => r end
        | r => r
        end
      | VOther _ a, VOther _ b => N.compare a b
      | _, _ => Eq
      end
    | r => r
    end
  end.

(** The loop over elements, for reference in statements about vectors. *)
Fixpoint qcompare_list (l m : list val) : comparison :=
  match l, m with
  | a :: l', b :: m' => match qcompare a b with Eq => qcompare_list l' m' | c => c end
  | _, _ => Eq
  end.

(** ** The inlined versions: base_compare, cons.h:957-1012 and
    __kno_cons_compare, cons.h:1013-1067.  [sub] is what they call on components
    (KNO_QCOMPARE and base_compare respectively). *)
Section Inlined.
Variable sub : val -> val -> comparison.
Fixpoint sub_list (l m : list val) : comparison :=
  match l, m with
  | a :: l', b :: m' => match sub a b with Eq => sub_list l' m' | c => c end
  | _, _ => Eq
  end.
Definition inline_compare (x y : val) : comparison :=
  match x, y with
  | VAtom a, VAtom b => N.compare a b
  | VAtom _, _ => Lt
  | _, VAtom _ => Gt
  | VNum a, VNum b => numcompare a b
  | VNum _, _ => Lt
  | _, VNum _ => Gt
  | _, _ =>
    match N.compare (typecode x) (typecode y) with
    | Eq =>
      match x, y with
      | VPair a b, VPair c d => match sub a c with Eq => sub b d | r => r end
      | VStr s, VStr t => match len_compare s t with Eq => strncmp s t | r => r end
      | VVec l, VVec m => match len_compare l m with Eq => sub_list l m | r => r end
      | _, _ => qcompare x y
      end
    | r => r
    end
  end.
End Inlined.
Definition base_compare : val -> val -> comparison := inline_compare qcompare.
Definition cons_compare : val -> val -> comparison := inline_compare base_compare.

(** ** lispval_equal, cons.c:231-300

    Compounds are left out: their comparator is called with other flags (line
    297); they answer [false] here. *)
Fixpoint lequal (x y : val) {struct x} : bool :=
  let list_eq := fix list_eq (l m : list val) {struct l} : bool :=
    match l, m with
    | a :: l', b :: m' => if lequal a b then list_eq l' m' else false
    | _, _ => true
    end in
  match x, y with
  | VAtom a, VAtom b => a =? b
  | VAtom _, _ | _, VAtom _ => false
  | VNum a, VNum b => match numcompare a b with Eq => true | _ => false end
  | VPacket _ a, VPacket _ b =>
    (* PACKETP covers packets and secrets, cons.h:482-483 *)
    if Nat.eqb (length a) (length b)
    then match memcmp a b with Eq => true | _ => false end else false
  | VPair a b, VPair c d => if lequal a c then lequal b d else false
  | VStr s, VStr t =>
    if Nat.eqb (length s) (length t)
    then match strncmp s t with Eq => true | _ => false end else false
  | VVec l, VVec m => if Nat.eqb (length l) (length m) then list_eq l m else false
  | VChoice l, VChoice m => if Nat.eqb (length l) (length m) then list_eq l m else false
  | VQChoice l, VQChoice m =>
    (* compare_qchoice with flags 1 on the two choices: zero iff same length and
       pairwise zero, as for choices *)
    if Nat.eqb (length l) (length m) then list_eq l m else false
  | VOther t a, VOther u b => (t =? u) && (a =? b)
  | _, _ => false
  end.

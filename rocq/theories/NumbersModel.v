(** * Model of the exact numbers: fixnums, bigints, rationals and complex numbers with
      exact parts.

    Source: src/lisp/numbers.c 1864-2680, src/eval/arith.c, src/eval/coreops.c 236-310,
    include/kno/ptr.h 630-690.

    Simplifications, common to the whole file:
    - flonums are not modelled: every function here is the code restricted to arguments
      without floating point parts (and numeric vectors, the other types that kno_plus
      accepts, are left out);
    - a rational has integer parts by construction; make_rational, the only constructor
      that arithmetic uses, refuses anything else;
    - reference counts are not modelled: freeing a temporary has no effect here;
    - kno_plus and kno_multiply read FIX2INT of every argument, also of pointers, and
      compare it to 0 and 1; a pointer to a heap object is taken to give neither, so the
      test is one for the fixnums 0 and 1.

    [option]: [None] is undefined behaviour of the C code (an integer overflow, a hardware
    trap on division by zero, the use of a null pointer). *)

From Coq Require Import ZArith List Bool.
From Verif Require Import SortModel BigintModel.
Import ListNotations.
Open Scope Z_scope.

(** ** Integers *)

(** KNO_MAX_FIXNUM and KNO_MIN_FIXNUM, include/kno/ptr.h:639, 649-650, with 64-bit
    pointers: the fixnums have 62 bits but -2^61 is not one of them. *)
Definition max_fixnum : Z := 2305843009213693951.
Definition min_fixnum : Z := -2305843009213693951.
Definition fixnum_bits : Z := 62.

(** An exact integer: a tagged word or a pointer to a bigint. *)
Inductive inum := Fix (z : Z) | Big (b : bigint).

(** KNO_INT on a long long, include/kno/ptr.h:680-687, and kno_make_bigint,
    numbers.c:1864-1873. *)
Definition kno_int (n : Z) : option inum :=
  if (max_fixnum <? n) || (n <? min_fixnum)
  then do b <- long_long_to_bigint n; Some (Big b)
  else Some (Fix n).
(** tobigint, numbers.c:2032-2043. *)
Definition tobigint (x : inum) : option bigint :=
  match x with Fix z => long_long_to_bigint z | Big b => Some b end.
(** simplify_bigint, numbers.c:2044-2053. *)
Definition simplify (b : bigint) : option inum :=
  do fits <- fits_in_word b fixnum_bits true;
  if fits then do n <- bigint_to_long b; kno_int n else Some (Big b).

(** The last step of the fixnum cases of kno_plus, kno_multiply and kno_subtract,
    numbers.c:2296-2298, 2368-2370, 2426-2428: both bounds are excluded. *)
Definition fix_result (r : Z) : option inum :=
  if (r <? max_fixnum) && (min_fixnum <? r) then kno_int r
  else do b <- long_long_to_bigint r; Some (Big b).

(** kno_plus on integers, numbers.c:2285-2298 and 2337-2342. *)
Definition iplus (x y : inum) : option inum :=
  match x, y with
  | Fix ix, Fix iy =>
    if ix =? 0 then Some y else if iy =? 0 then Some x
    else do r <- int64 (ix + iy); fix_result r
  | _, _ =>
    match x, y with
    | Fix 0, _ => Some y
    | _, Fix 0 => Some x
    | _, _ =>
      do bx <- tobigint x; do b_y <- tobigint y; do r <- bigint_add bx b_y; simplify r
    end
  end.
(** kno_subtract on integers, numbers.c:2421-2428 and 2464-2469. *)
Definition isubtract (x y : inum) : option inum :=
  match x, y with
  | Fix ix, Fix iy => do r <- int64 (ix - iy); fix_result r
  | _, _ =>
    do bx <- tobigint x; do b_y <- tobigint y; do r <- bigint_subtract bx b_y; simplify r
  end.
(** kno_multiply on integers, numbers.c:2346-2370 and 2412-2417. *)
Definition big_multiply (x y : inum) : option inum :=
  do bx <- tobigint x; do b_y <- tobigint y; do r <- bigint_multiply bx b_y; simplify r.
Definition imultiply (x y : inum) : option inum :=
  match x, y with
  | Fix ix, Fix iy =>
    if (iy =? 0) || (ix =? 0) then Some (Fix 0)
    else if ix =? 1 then Some y
    else if iy =? 1 then Some x
    else
      let q := if 0 <? iy then Z.quot max_fixnum iy else Z.quot min_fixnum iy in
      if (if 0 <? ix then q <? ix else q <? - ix) then big_multiply x y
      else do r <- int64 (ix * iy); fix_result r
  | _, _ =>
    match x, y with
    | Fix 0, _ => Some (Fix 0)
    | _, Fix 0 => Some (Fix 0)
    | Fix 1, _ => Some y
    | _, Fix 1 => Some x
    | _, _ => big_multiply x y
    end
  end.
(** kno_quotient and kno_remainder on integers, numbers.c:2544-2580: C division of longs
    traps on zero; kno_bigint_quotient returns a null pointer for a zero divisor, which
    simplify_bigint reads. *)
Definition iquotient (x y : inum) : option inum :=
  match x, y with
  | Fix ix, Fix iy => if iy =? 0 then None else kno_int (Z.quot ix iy)
  | _, _ =>
    do bx <- tobigint x; do b_y <- tobigint y;
    do r <- bigint_quotient bx b_y;
    match r with Some q => simplify q | None => None end
  end.
Definition iremainder (x y : inum) : option inum :=
  match x, y with
  | Fix ix, Fix iy => if iy =? 0 then None else kno_int (Z.rem ix iy)
  | _, _ =>
    do bx <- tobigint x; do b_y <- tobigint y;
    do r <- bigint_remainder bx b_y;
    match r with Some q => simplify q | None => None end
  end.

(** fix_gcd, numbers.c:2161-2169, on the absolute values; [fuel] bounds the rounds. *)
Fixpoint fix_gcd_loop (fuel : nat) (x a : Z) : option Z :=
  match fuel with
  | O => None
  | S fuel' => if a =? 0 then Some x else fix_gcd_loop fuel' a (Z.rem x a)
  end.
Definition gcd_fuel (a : Z) : nat := Z.to_nat (2 * Z.log2 (Z.abs a) + 3).
Definition fix_gcd (x y : Z) : option Z := fix_gcd_loop (gcd_fuel y) (Z.abs x) (Z.abs y).

(** The sign macros and signum on integers, numbers.c:2171-2179, 2600-2616. *)
Definition isign (x : inum) : Z :=
  match x with
  | Fix z => if z <? 0 then -1 else if 0 <? z then 1 else 0
  | Big b => match bigint_test b with Lt => -1 | Gt => 1 | Eq => 0 end
  end.
(** int_gcd, numbers.c:2181-2210. *)
Definition inorm_sign (x : inum) : option inum :=
  match x with
  | Fix z => if z <? 0 then kno_int (- z) else Some x
  | Big _ => if isign x =? -1 then isubtract (Fix 0) x else Some x
  end.
Fixpoint int_gcd_loop (fuel : nat) (x a : inum) : option inum :=
  match fuel with
  | O => None
  | S fuel' =>
    if isign a =? 0 then Some x
    else do r <- iremainder x a; int_gcd_loop fuel' a r
  end.
Definition int_gcd_fuel (a : inum) : nat :=
  match a with Fix z => gcd_fuel z | Big b => (60 * blength b + 3)%nat end.
Definition int_gcd (x y : inum) : option inum :=
  match x, y with
  | Fix ix, Fix iy => do g <- fix_gcd ix iy; kno_int g
  | _, _ =>
    do x' <- inorm_sign x; do y' <- inorm_sign y;
    int_gcd_loop (int_gcd_fuel y') x' y'
  end.

(** ** Reals *)

Inductive real := RI (i : inum) | RR (n d : inum).
(** The outcome of a call: a number, an error object, or a complex number object whose
    parts are error objects. *)
Inductive res (A : Type) := Val (a : A) | Err | Junk.
Arguments Val {A}. Arguments Err {A}. Arguments Junk {A}.
(** The rest of a computation runs when the value before it is a number; an error object
    given to the arithmetic functions gives another error object. *)
Definition rbind {A B} (x : option (res A)) (f : A -> option (res B)) : option (res B) :=
  do r <- x; match r with Val a => f a | Err => Some Err | Junk => Some Junk end.

(** NUMERATOR and DENOMINATOR, numbers.c:1998-1999. *)
Definition numerator (x : real) : inum := match x with RI i => i | RR n _ => n end.
Definition denominator (x : real) : inum := match x with RI _ => Fix 1 | RR _ d => d end.

(** make_rational, numbers.c:2105-2137. *)
Definition make_rational (num den : inum) : option (res real) :=
  match num, den with
  | _, Fix 0 => Some Err
  | Fix inum0, Fix iden0 =>
    do g <- fix_gcd inum0 iden0;
    if g =? 0 then None else
    let n := Z.quot inum0 g in
    let d := Z.quot iden0 g in
    if d =? 1 then do i <- kno_int n; Some (Val (RI i))
    else if d <? 0 then do n' <- kno_int (- n); do d' <- kno_int (- d); Some (Val (RR n' d'))
    else do n' <- kno_int n; do d' <- kno_int d; Some (Val (RR n' d'))
  | _, _ =>
    do g <- int_gcd num den;
    do n <- iquotient num g;
    do d <- iquotient den g;
    match d with
    | Fix 1 => Some (Val (RI n))
    | _ => Some (Val (RR n d))
    end
  end.

(** kno_plus on reals, numbers.c:2285-2342. *)
Definition rplus (x y : real) : option (res real) :=
  match x, y with
  | RI a, RI b => do i <- iplus a b; Some (Val (RI i))
  | RI (Fix 0), _ => Some (Val y)
  | _, RI (Fix 0) => Some (Val x)
  | _, _ =>
    do new_denom <- imultiply (denominator x) (denominator y);
    do p1 <- imultiply (numerator x) (denominator y);
    do p2 <- imultiply (numerator y) (denominator x);
    do new_num <- iplus p1 p2;
    make_rational new_num new_denom
  end.
(** kno_subtract on reals, numbers.c:2421-2470. *)
Definition rsubtract (x y : real) : option (res real) :=
  match x, y with
  | RI a, RI b => do i <- isubtract a b; Some (Val (RI i))
  | _, _ =>
    do new_denom <- imultiply (denominator x) (denominator y);
    do p1 <- imultiply (numerator x) (denominator y);
    do p2 <- imultiply (numerator y) (denominator x);
    do new_num <- isubtract p1 p2;
    make_rational new_num new_denom
  end.
(** kno_multiply on reals, numbers.c:2346-2418. *)
Definition rmultiply (x y : real) : option (res real) :=
  match x, y with
  | RI a, RI b => do i <- imultiply a b; Some (Val (RI i))
  | RI (Fix 0), _ => Some (Val (RI (Fix 0)))
  | _, RI (Fix 0) => Some (Val (RI (Fix 0)))
  | RI (Fix 1), _ => Some (Val y)
  | _, RI (Fix 1) => Some (Val x)
  | _, _ =>
    do new_num <- imultiply (numerator x) (numerator y);
    do new_denom <- imultiply (denominator x) (denominator y);
    make_rational new_num new_denom
  end.
(** kno_divide on reals, numbers.c:2473-2514. *)
Definition rdivide (x y : real) : option (res real) :=
  match x, y with
  | RI a, RI b => make_rational a b
  | _, _ =>
    do new_num <- imultiply (numerator x) (denominator y);
    do new_denom <- imultiply (denominator x) (numerator y);
    make_rational new_num new_denom
  end.
(** signum, numbers.c:2600-2624. *)
Definition rsign (x : real) : Z :=
  match x with RI i => isign i | RR n d => isign n * isign d end.
(** kno_numcompare on reals, numbers.c:2640-2672; an error object has signum 0. *)
Definition numcompare (x y : real) : option Z :=
  match x, y with
  | RI (Fix dx), RI (Fix dy) => Some (if dy <? dx then 1 else if dx <? dy then -1 else 0)
  | _, _ =>
    do r <- rsubtract x y;
    match r with Val d => Some (rsign d) | _ => Some 0 end
  end.

(** ** Complex numbers *)

Inductive num := NR (r : real) | NC (re im : real).
(** REALPART and IMAGPART, numbers.c:1993-1995. *)
Definition realpart (x : num) : real := match x with NR r => r | NC r _ => r end.
Definition imagpart (x : num) : real := match x with NR _ => RI (Fix 0) | NC _ i => i end.
(** make_complex, numbers.c:2057-2067: a part that is an error object does not compare
    equal to zero and is stored. *)
Definition make_complex (re im : res real) : option (res num) :=
  match re, im with
  | Val r, Val i => do c <- numcompare i (RI (Fix 0)); Some (Val (if c =? 0 then NR r else NC r i))
  | _, _ => Some Junk
  end.
Definition lift (x : option (res real)) : option (res num) :=
  rbind x (fun r => Some (Val (NR r))).

(** kno_plus, numbers.c:2285-2343. *)
Definition kno_plus (x y : num) : option (res num) :=
  match x, y with
  | NR a, NR b => lift (rplus a b)
  | NR (RI (Fix 0)), _ => Some (Val y)
  | _, NR (RI (Fix 0)) => Some (Val x)
  | _, _ =>
    do re <- rplus (realpart x) (realpart y);
    do im <- rplus (imagpart x) (imagpart y);
    make_complex re im
  end.
(** kno_subtract, numbers.c:2421-2470. *)
Definition kno_subtract (x y : num) : option (res num) :=
  match x, y with
  | NR a, NR b => lift (rsubtract a b)
  | _, _ =>
    do re <- rsubtract (realpart x) (realpart y);
    do im <- rsubtract (imagpart x) (imagpart y);
    make_complex re im
  end.
(** An arithmetic function given error objects returns an error object. *)
Definition rop (f : real -> real -> option (res real)) (x y : res real) : option (res real) :=
  match x, y with Val a, Val b => f a b | _, _ => Some Err end.
(** kno_multiply, numbers.c:2346-2418. *)
Definition kno_multiply (x y : num) : option (res num) :=
  match x, y with
  | NR a, NR b => lift (rmultiply a b)
  | NR (RI (Fix 0)), _ => Some (Val (NR (RI (Fix 0))))
  | _, NR (RI (Fix 0)) => Some (Val (NR (RI (Fix 0))))
  | NR (RI (Fix 1)), _ => Some (Val y)
  | _, NR (RI (Fix 1)) => Some (Val x)
  | _, _ =>
    do t1 <- rmultiply (realpart x) (realpart y);
    do t2 <- rmultiply (imagpart x) (imagpart y);
    do t3 <- rmultiply (realpart x) (imagpart y);
    do t4 <- rmultiply (imagpart x) (realpart y);
    do re <- rop rsubtract t1 t2;
    do im <- rop rplus t3 t4;
    make_complex re im
  end.
(** kno_divide, numbers.c:2473-2514. *)
Definition kno_divide (x y : num) : option (res num) :=
  match x, y with
  | NR a, NR b => lift (rdivide a b)
  | _, _ =>
    let a := realpart x in let b := imagpart x in
    let c := realpart y in let d := imagpart y in
    do ac <- rmultiply a c; do ad <- rmultiply a d;
    do cb <- rmultiply c b; do bd <- rmultiply b d;
    do cc <- rmultiply c c; do dd <- rmultiply d d;
    do ccpdd <- rop rplus cc dd;
    do ac_bd <- rop rplus ac bd; do cb_ad <- rop rsubtract cb ad;
    do re <- rop rdivide ac_bd ccpdd;
    do im <- rop rdivide cb_ad ccpdd;
    make_complex re im
  end.
(** kno_numcompare when the second argument is complex and the first is not,
    numbers.c:2656-2672: the test for complex arguments (line 2656) looks at the first
    argument twice; signum of a complex number is 0. *)
Definition numcompare_complex (x : real) (re im : real) : option Z :=
  do r <- kno_subtract (NR x) (NC re im);
  match r with Val (NR d) => Some (rsign d) | _ => Some 0 end.

(** int_lcm, numbers.c:2212-2225. *)
Definition int_lcm (x y : inum) : option (res real) :=
  do prod <- imultiply x y;
  do g <- int_gcd x y;
  do prod' <- match prod with
              | Fix p => if p <? 0 then kno_int (- p) else Some prod
              | Big _ => if isign prod =? -1 then isubtract (Fix 0) prod else Some prod
              end;
  rdivide (RI prod') (RI g).

(** ** Scheme primitives, src/eval/arith.c *)

(** quotient_prim and remainder_prim, arith.c:1171-1179, 527-534. *)
Definition quotient_prim (x y : inum) : option (res inum) :=
  match x, y with
  | Fix ix, Fix iy => if iy =? 0 then Some Err else do q <- kno_int (Z.quot ix iy); Some (Val q)
  | _, _ => do q <- iquotient x y; Some (Val q)
  end.
Definition remainder_prim (x y : inum) : option (res inum) :=
  match x, y with
  | Fix ix, Fix iy => if iy =? 0 then None else do r <- kno_int (Z.rem ix iy); Some (Val r)
  | _, _ => do r <- iremainder x y; Some (Val r)
  end.
(** modulo_prim, arith.c:976-1006. *)
Definition modulo_prim (x b : inum) : option (res inum) :=
  match x, b with
  | Fix ix, Fix ib =>
    if ix =? 0 then Some (Val (Fix 0))
    else if ib =? 0 then Some Err
    else if ((0 <? ix) && (0 <? ib)) || ((ix <? 0) && (ib <? 0))
    then do r <- kno_int (Z.rem ix ib); Some (Val r)
    else
      let rem := Z.rem ix ib in
      do r <- (if rem =? 0 then kno_int rem else kno_int (ib + rem)); Some (Val r)
  | _, _ =>
    do xsign <- numcompare (RI x) (RI (Fix 0));
    do bsign <- numcompare (RI b) (RI (Fix 0));
    if xsign =? 0 then Some (Val (Fix 0))
    else if bsign =? 0 then Some Err
    else if ((0 <? xsign) && (0 <? bsign)) || ((xsign <? 0) && (bsign <? 0))
    then do r <- iremainder x b; Some (Val r)
    else
      do rem <- iremainder x b;
      match rem with
      | Fix 0 => Some (Val rem)
      | _ => do r <- iplus b rem; Some (Val r)
      end
  end.
(** truncate_prim, floor_prim, ceiling_prim and round_prim, arith.c:1039-1125. *)
Definition truncate_prim (x : real) : option inum :=
  match x with RI i => Some i | RR n d => iquotient n d end.
Definition floor_prim (x : real) : option inum :=
  match x with
  | RI i => Some i
  | RR n d =>
    do q <- iquotient n d;
    do c <- numcompare x (RI (Fix 0));
    if c <? 0 then isubtract q (Fix 1) else Some q
  end.
Definition ceiling_prim (x : real) : option inum :=
  match x with
  | RI i => Some i
  | RR n d =>
    do q <- iquotient n d;
    do c <- numcompare x (RI (Fix 0));
    if 0 <? c then iplus q (Fix 1) else Some q
  end.
Definition round_prim (x : real) : option inum :=
  match x with
  | RI i => Some i
  | RR n d =>
    do q <- iquotient n d;
    do r <- iremainder n d;
    do halfd <- iquotient d (Fix 2);
    do c <- numcompare (RI r) (RI halfd);
    if c <? 0 then Some q
    else
      do s <- numcompare x (RI (Fix 0));
      if s <? 0 then isubtract q (Fix 1) else iplus q (Fix 1)
  end.
(** abs_prim, arith.c:957-968. *)
Definition abs_prim (x : real) : option (res real) :=
  match x with
  | RI (Fix z) => if z <? 0 then do i <- kno_int (- z); Some (Val (RI i)) else Some (Val x)
  | _ =>
    do c <- numcompare x (RI (Fix 0));
    if c <? 0 then rsubtract (RI (Fix 0)) x else Some (Val x)
  end.
(** oddp and evenp, arith.c:142-175. *)
Definition odd_prim (x : inum) : option bool :=
  match x with
  | Fix z => Some (negb (Z.rem z 2 =? 0))
  | Big _ => do r <- iremainder x (Fix 2); match r with Fix z => Some (negb (z =? 0)) | Big _ => None end
  end.
Definition even_prim (x : inum) : option bool :=
  match x with
  | Fix z => Some (Z.rem z 2 =? 0)
  | Big _ => do r <- iremainder x (Fix 2); match r with Fix z => Some (z =? 0) | Big _ => None end
  end.

(** Fixnums only: the flags of plus_lexpr, times_lexpr and minus_lexpr when the arguments
    are exact reals. *)
Fixpoint all_fix (l : list real) : option (list Z) :=
  match l with
  | [] => Some []
  | RI (Fix z) :: t => match all_fix t with Some r => Some (z :: r) | None => None end
  | _ :: _ => None
  end.
Fixpoint sum64 (l : list Z) (acc : Z) : option Z :=
  match l with [] => Some acc | z :: t => do a <- int64 (acc + z); sum64 t a end.
Fixpoint diff64 (l : list Z) (acc : Z) : option Z :=
  match l with [] => Some acc | z :: t => do a <- int64 (acc - z); diff64 t a end.
Fixpoint fold_res (f : real -> real -> option (res real)) (acc : res real) (l : list real)
  : option (res real) :=
  match l with [] => Some acc | y :: t => do a <- rop f acc (Val y); fold_res f a t end.
Definition ival_res (x : option inum) : option (res real) := do i <- x; Some (Val (RI i)).
(** plus_lexpr, arith.c:221-275. *)
Definition plus_lexpr (l : list real) : option (res real) :=
  match l with
  | [] => Some (Val (RI (Fix 0)))
  | [x] => Some (Val x)
  | [x; y] => rplus x y
  | _ =>
    match all_fix l with
    | Some zs => ival_res (do s <- sum64 zs 0; kno_int s)
    | None => fold_res rplus (Val (RI (Fix 0))) l
    end
  end.
(** plus1 and minus1, arith.c:285-311. *)
Definition plus1 (x : real) : option (res real) :=
  match x with
  | RI (Fix z) => ival_res (do i <- int64 (z + 1); kno_int i)
  | _ => plus_lexpr [x; RI (Fix 1)]
  end.
Definition minus1 (x : real) : option (res real) :=
  match x with
  | RI (Fix z) => ival_res (do i <- int64 (z - 1); kno_int i)
  | _ => plus_lexpr [x; RI (Fix (-1))]
  end.
(** minus_lexpr, arith.c:377-438. *)
Definition minus_lexpr (l : list real) : option (res real) :=
  match l with
  | [RI (Fix z)] => ival_res (kno_int (- z))
  | [x] => rsubtract (RI (Fix 0)) x
  | [x; y] => rsubtract x y
  | [] => Some (Val (RI (Fix 0)))
  | x :: t =>
    match all_fix l with
    | Some (z :: zs) => ival_res (do s <- diff64 zs z; kno_int s)
    | _ => fold_res rsubtract (Val x) t
    end
  end.
(** times_lexpr, arith.c:318-371: the limit is kept in an [int] (line 344). *)
Definition to_int (z : Z) : Z := (z + 2147483648) mod 4294967296 - 2147483648.
Fixpoint times_big (acc : inum) (l : list Z) : option inum :=
  match l with [] => Some acc | z :: t => do a <- imultiply acc (Fix z); times_big a t end.
Fixpoint times_fix (l : list Z) (acc : Z) : option inum :=
  match l with
  | [] => kno_int acc
  | mult :: t =>
    if mult =? 0 then Some (Fix 0) else
    let q := to_int (if 0 <? mult then Z.quot max_fixnum mult else Z.quot min_fixnum mult) in
    if (if 0 <? acc then q <? acc else q <? - acc)
    then do k <- kno_int acc; do b <- imultiply k (Fix mult); times_big b t
    else do a <- int64 (acc * mult); times_fix t a
  end.
Definition times_lexpr (l : list real) : option (res real) :=
  match l with
  | [x] => Some (Val x)
  | [x; y] => rmultiply x y
  | _ =>
    match all_fix l with
    | Some zs => ival_res (times_fix zs 1)
    | None => fold_res rmultiply (Val (RI (Fix 1))) l
    end
  end.
(** div_lexpr, arith.c:470-491; without arguments it reads before the argument count. *)
Definition div_lexpr (l : list real) : option (res real) :=
  match l with
  | [] => None
  | [x] => rdivide (RI (Fix 1)) x
  | x :: t => fold_res rdivide (Val x) t
  end.
(** The exact case of pow_prim, arith.c:822-834, on reals; it applies when 0 <= n < 1000000,
    and the other case (doubles, 835-843) is not modelled.  KNO_ZEROP is include/kno/numbers.h:77-79. *)
Fixpoint pow_loop (n : nat) (prod : res real) (v : real) : option (res real) :=
  match n with O => Some prod | S n' => do p <- rop rmultiply prod (Val v); pow_loop n' p v end.
Definition pow_prim (v : real) (n : Z) : option (res real) :=
  match v with
  | RI (Fix 0) => Some (Val (RI (Fix 1)))
  | _ => pow_loop (Z.to_nat n) (Val (RI (Fix 1))) v
  end.
(** min_prim and max_prim, arith.c:902-951, on exact reals. *)
Fixpoint best (better : Z -> bool) (acc : real) (l : list real) : option real :=
  match l with
  | [] => Some acc
  | x :: t => do c <- numcompare x acc; best better (if better c then x else acc) t
  end.
Definition min_prim (x : real) (l : list real) : option real := best (fun c => c <? 0) x l.
Definition max_prim (x : real) (l : list real) : option real := best (fun c => 0 <? c) x l.
(** do_compare and the six comparison primitives, coreops.c:270-320; numeric_compare
    (236-247) gives on exact numbers what kno_numcompare gives. *)
Fixpoint do_compare (test : Z -> bool) (x : real) (l : list real) : option bool :=
  match l with
  | [] => Some true
  | y :: t => do c <- numcompare x y; if test c then do_compare test y t else Some false
  end.
Definition lt_prim := do_compare (fun c => c =? -1).
Definition lte_prim := do_compare (fun c => (c =? -1) || (c =? 0)).
Definition numeq_prim := do_compare (fun c => c =? 0).
Definition gte_prim := do_compare (fun c => (c =? 0) || (c =? 1)).
Definition gt_prim := do_compare (fun c => c =? 1).
Definition numneq_prim := do_compare (fun c => (c =? -1) || (c =? 1)).

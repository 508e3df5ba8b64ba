(** * Multiple-precision integers: the digit algorithms.

    Source: /repo/src/lisp/numbers.c:176-1860 and /repo/src/lisp/biginternals.h:47-125.

    A digit is a C [int] holding 30 bits (biginternals.h:59).  The digits of a bigint
    are kept least significant first; here they are a list in that order, and the
    header word (length and sign bit, biginternals.h:67-83) is the length of the list
    and a boolean.  Lengths of 2^30 digits and more, for which the header word cannot
    hold the length, and allocation failure are not modelled.

    Every function returns [None] where the C code would have undefined behaviour or
    raise an internal error: an [int] that leaves its range, a digit read or written
    outside the array, a failing BIGINT_ASSERT.  [unsigned long] intermediates
    (BIGINT_RADIX and the masks are unsigned long, biginternals.h:61-64) are assigned
    to [int] variables: [int32] is applied to the mathematical value. *)

From Coq Require Export ZArith List Bool.
From Verif Require Export SortModel.
Export ListNotations.
Open Scope Z_scope.

(** BIGINT_DIGIT_LENGTH, BIGINT_RADIX, BIGINT_RADIX_ROOT, biginternals.h:59-62. *)
Definition digit_length : Z := 30.
Definition radix : Z := 1073741824.
Definition radix_root : Z := 32768.

(** An [int] variable is given the value [z]. *)
Definition int32 (z : Z) : option Z :=
  if (-2147483648 <=? z) && (z <=? 2147483647) then Some z else None.

(** HD_LOW, HD_HIGH, HD_CONS, biginternals.h:99-101. *)
Definition hd_low (d : Z) : Z := Z.land d (radix_root - 1).
Definition hd_high (d : Z) : Z := Z.shiftr d 15.
Definition hd_cons (h l : Z) : Z := Z.lor (Z.shiftl h 15) l.

(** struct KNO_BIGINT: sign bit and digits, least significant first. *)
Record bigint := BI { bneg : bool; bdig : list Z }.

Definition blength (b : bigint) : nat := length (bdig b).
(** BIGINT_ZERO_P, biginternals.h:82. *)
Definition bzero_p (b : bigint) : bool := match bdig b with [] => true | _ => false end.
(** bigint_make_zero and bigint_make_one, numbers.c:176-191. *)
Definition make_zero : bigint := BI false [].
Definition make_one (neg : bool) : bigint := BI neg [1].

(** bigint_copy, bigint_new_sign, bigint_maybe_new_sign, numbers.c:1813-1846
    (BIGINT_FORCE_NEW_RESULTS is defined, so a copy is always made). *)
Definition bcopy (b : bigint) : bigint := b.
Definition new_sign (b : bigint) (neg : bool) : bigint := BI neg (bdig b).
Definition maybe_new_sign (b : bigint) (neg : bool) : bigint := BI neg (bdig b).

(** bigint_trim, numbers.c:1792-1809: the scan runs down from the most significant
    digit.  When every digit is zero it also reads the header word, which is not zero
    because the length is not; the outcome is the same. *)
Fixpoint drop_zeros (ds : list Z) : list Z :=
  match ds with
  | d :: t => if d =? 0 then drop_zeros t else ds
  | [] => []
  end.
Definition trim (b : bigint) : bigint :=
  let ds := rev (drop_zeros (rev (bdig b))) in
  if (length ds <? blength b)%nat
  then BI (negb (match ds with [] => true | _ => false end) && bneg b) ds
  else b.
(** bigint_shorten_length, numbers.c:1777-1790. *)
Definition shorten_length (b : bigint) (n : nat) : bigint :=
  if (n <? blength b)%nat
  then BI (negb (n =? 0)%nat && bneg b) (firstn n (bdig b))
  else b.

(** ** Comparison *)

(** bigint_equal_p_unsigned, numbers.c:878-895. *)
Fixpoint equal_digits (xs ys : list Z) : bool :=
  match xs, ys with
  | [], [] => true
  | x :: xs', y :: ys' => if x =? y then equal_digits xs' ys' else false
  | _, _ => false
  end.
(** The digit loop of bigint_compare_unsigned, numbers.c:907-921; the arguments list
    the digits from the most significant one down. *)
Fixpoint compare_digits (xs ys : list Z) : comparison :=
  match xs, ys with
  | x :: xs', y :: ys' =>
    if x <? y then Lt else if y <? x then Gt else compare_digits xs' ys'
  | _, _ => Eq
  end.
(** bigint_compare_unsigned, numbers.c:897-924. *)
Definition compare_unsigned (x y : list Z) : comparison :=
  if (length x <? length y)%nat then Lt
  else if (length y <? length x)%nat then Gt
  else compare_digits (rev x) (rev y).
(** bigint_equal_p, numbers.c:193-204. *)
Definition bigint_equal_p (x y : bigint) : bool :=
  if bzero_p x then bzero_p y
  else negb (bzero_p y) && Bool.eqb (bneg x) (bneg y) && equal_digits (bdig x) (bdig y).
(** bigint_test, numbers.c:206-215. *)
Definition bigint_test (b : bigint) : comparison :=
  if bzero_p b then Eq else if bneg b then Lt else Gt.
(** kno_bigint_compare, numbers.c:217-240. *)
Definition bigint_compare (x y : bigint) : comparison :=
  if bzero_p x then (if bzero_p y then Eq else if bneg y then Gt else Lt)
  else if bzero_p y then (if bneg x then Lt else Gt)
  else if bneg x then (if bneg y then compare_unsigned (bdig y) (bdig x) else Lt)
  else if bneg y then Gt else compare_unsigned (bdig x) (bdig y).

(** ** Addition and subtraction *)

(** The second and third loop of bigint_add_unsigned, numbers.c:960-977. *)
Fixpoint add_carry (xs : list Z) (carry : Z) : option (list Z * Z) :=
  if carry =? 0 then Some (xs, 0) else
  match xs with
  | [] => Some ([], carry)
  | x :: xs' =>
    do sum <- int32 (x + 1);
    if sum <? radix then Some (sum :: xs', 0)
    else do (t, c) <- add_carry xs' carry; Some ((sum - radix) :: t, c)
  end.
(** The first loop of bigint_add_unsigned, numbers.c:943-957. *)
Fixpoint add_loop (xs ys : list Z) (carry : Z) {struct ys} : option (list Z * Z) :=
  match ys with
  | [] => add_carry xs carry
  | y :: ys' =>
    match xs with
    | [] => None
    | x :: xs' =>
      do sum <- int32 (x + y + carry);
      if sum <? radix then do (t, c) <- add_loop xs' ys' 0; Some (sum :: t, c)
      else do (t, c) <- add_loop xs' ys' 1; Some ((sum - radix) :: t, c)
    end
  end.
(** bigint_add_unsigned, numbers.c:926-985: the longer operand is put first; the last
    digit is 1 when there is a carry and is cut off when there is none. *)
Definition add_unsigned (x y : list Z) (neg : bool) : option bigint :=
  let (x, y) := if (length x <? length y)%nat then (y, x) else (x, y) in
  do (r, carry) <- add_loop x y 0;
  if carry =? 0 then Some (shorten_length (BI neg (r ++ [0])) (length x))
  else Some (BI neg (r ++ [1])).

(** The second loop of bigint_subtract_unsigned with its assertion,
    numbers.c:1039-1058. *)
Fixpoint sub_borrow (xs : list Z) (borrow : Z) : option (list Z) :=
  if borrow =? 0 then Some xs else
  match xs with
  | [] => None
  | x :: xs' =>
    do difference <- int32 (x - borrow);
    if difference <? 0 then do t <- sub_borrow xs' borrow; Some ((difference + radix) :: t)
    else Some (difference :: xs')
  end.
(** The first loop of bigint_subtract_unsigned, numbers.c:1021-1036. *)
Fixpoint sub_loop (xs ys : list Z) (borrow : Z) {struct ys} : option (list Z) :=
  match ys with
  | [] => sub_borrow xs borrow
  | y :: ys' =>
    match xs with
    | [] => None
    | x :: xs' =>
      do difference <- int32 (x - y - borrow);
      if difference <? 0
      then do t <- sub_loop xs' ys' 1; Some ((difference + radix) :: t)
      else do t <- sub_loop xs' ys' 0; Some (difference :: t)
    end
  end.
(** bigint_subtract_unsigned, numbers.c:990-1062. *)
Definition subtract_unsigned (x y : list Z) (make_negative : bool) : option bigint :=
  match compare_unsigned x y with
  | Eq => Some make_zero
  | Lt => do r <- sub_loop y x 0; Some (trim (BI (negb make_negative) r))
  | Gt => do r <- sub_loop x y 0; Some (trim (BI make_negative r))
  end.

(** kno_bigint_add, numbers.c:242-258. *)
Definition bigint_add (x y : bigint) : option bigint :=
  if bzero_p x then Some (bcopy y)
  else if bzero_p y then Some (bcopy x)
  else if bneg x then
    (if bneg y then add_unsigned (bdig x) (bdig y) true
     else subtract_unsigned (bdig y) (bdig x) false)
  else if bneg y then subtract_unsigned (bdig x) (bdig y) false
  else add_unsigned (bdig x) (bdig y) false.
(** kno_bigint_subtract, numbers.c:260-278. *)
Definition bigint_subtract (x y : bigint) : option bigint :=
  if bzero_p x then
    (if bzero_p y then Some (bcopy y) else Some (new_sign y (negb (bneg y))))
  else if bzero_p y then Some (bcopy x)
  else if bneg x then
    (if bneg y then subtract_unsigned (bdig x) (bdig y) true
     else add_unsigned (bdig y) (bdig x) true)
  else if bneg y then add_unsigned (bdig x) (bdig y) false
  else subtract_unsigned (bdig x) (bdig y) false.
(** kno_bigint_negate, numbers.c:280-287. *)
Definition bigint_negate (x : bigint) : bigint :=
  if bzero_p x then bcopy x else new_sign x (negb (bneg x)).

(** ** Multiplication *)

(** The inner loop of bigint_multiply_unsigned and the addition of the last carry,
    numbers.c:1105-1129: one digit of x, split as [xh],[xl], times all of y, added to
    the result digits from the current position on.  The terms of each sum are not
    negative, so the check on the sum covers its parts. *)
Fixpoint mul_row (xh xl carry : Z) (ys rs : list Z) : option (list Z) :=
  match ys with
  | [] =>
    match rs with
    | r :: rs' => do s <- int32 (r + carry); Some (s :: rs')
    | [] => None
    end
  | y :: ys' =>
    match rs with
    | [] => None
    | r :: rs' =>
      let yl := hd_low y in
      let yh := hd_high y in
      do product_low <- int32 (r + xl * yl + hd_low carry);
      do product_high <- int32 (xh * yl + xl * yh + hd_high product_low + hd_high carry);
      do d <- int32 (hd_cons (hd_low product_high) (hd_low product_low));
      do carry' <- int32 (xh * yh + hd_high product_high);
      do t <- mul_row xh xl carry' ys' rs';
      Some (d :: t)
    end
  end.
(** The outer loop, numbers.c:1098-1130: [start_r++]. *)
Fixpoint mul_loop (xs ys rs : list Z) : option (list Z) :=
  match xs with
  | [] => Some rs
  | x :: xs' =>
    do r1 <- mul_row (hd_high x) (hd_low x) 0 ys rs;
    match r1 with
    | [] => None
    | d :: rest => do t <- mul_loop xs' ys rest; Some (d :: t)
    end
  end.
(** bigint_multiply_unsigned, numbers.c:1070-1136. *)
Definition multiply_unsigned (x y : list Z) (neg : bool) : option bigint :=
  let (x, y) := if (length x <? length y)%nat then (y, x) else (x, y) in
  do r <- mul_loop x y (repeat 0 (length x + length y));
  Some (trim (BI neg r)).

(** bigint_destructive_scale_up, numbers.c:1150-1179; [None] at the end is the
    assertion that no carry is left. *)
Fixpoint scale_up_loop (ds : list Z) (factor carry : Z) : option (list Z) :=
  match ds with
  | [] => if carry =? 0 then Some [] else None
  | two_digits :: t =>
    do product_low <- int32 (factor * hd_low two_digits + hd_low carry);
    do product_high <- int32 (factor * hd_high two_digits + hd_high product_low + hd_high carry);
    do d <- int32 (hd_cons (hd_low product_high) (hd_low product_low));
    do t' <- scale_up_loop t factor (hd_high product_high);
    Some (d :: t')
  end.
Definition scale_up (ds : list Z) (factor : Z) : option (list Z) :=
  if (1 <? factor) && (factor <? radix_root) then scale_up_loop ds factor 0 else None.
(** bigint_destructive_add, numbers.c:1181-1205; the loop has no bound on the array. *)
Fixpoint add_one (ds : list Z) : option (list Z) :=
  match ds with
  | [] => None
  | d :: t =>
    do digit <- int32 (d + 1);
    if digit <? radix then Some (digit :: t)
    else do t' <- add_one t; Some ((digit - radix) :: t')
  end.
Definition destructive_add (ds : list Z) (n : Z) : option (list Z) :=
  match ds with
  | [] => None
  | d :: t =>
    do digit <- int32 (d + n);
    if digit <? radix then Some (digit :: t)
    else do t' <- add_one t; Some ((digit - radix) :: t')
  end.
(** bigint_multiply_unsigned_small_factor, numbers.c:1138-1148. *)
Definition multiply_small_factor (x : list Z) (y : Z) (neg : bool) : option bigint :=
  do p <- scale_up (x ++ [0]) y; Some (trim (BI neg p)).

(** kno_bigint_multiply, numbers.c:289-322. *)
Definition bigint_multiply (x y : bigint) : option bigint :=
  let negative_p := if bneg x then negb (bneg y) else bneg y in
  if bzero_p x then Some (bcopy x)
  else if bzero_p y then Some (bcopy y)
  else
    let general :=
      match bdig y with
      | [digit] =>
        if digit =? 1 then Some (maybe_new_sign x negative_p)
        else if digit <? radix_root then multiply_small_factor (bdig x) digit negative_p
        else multiply_unsigned (bdig x) (bdig y) negative_p
      | _ => multiply_unsigned (bdig x) (bdig y) negative_p
      end in
    match bdig x with
    | [digit] =>
      if digit =? 1 then Some (maybe_new_sign y negative_p)
      else if digit <? radix_root then multiply_small_factor (bdig y) digit negative_p
      else general
    | _ => general
    end.

(** ** Division *)

(** bigint_destructive_scale_down, numbers.c:1689-1711: the scan runs from the most
    significant digit down, so the list is traversed from its end; gives the new digits
    and the remainder. *)
Fixpoint scale_down_loop (ds : list Z) (denominator : Z) : option (list Z * Z) :=
  match ds with
  | [] => Some ([], 0)
  | two_digits :: t =>
    do (t', remainder) <- scale_down_loop t denominator;
    do numerator <- int32 (hd_cons remainder (hd_high two_digits));
    do quotient_high <- int32 (Z.quot numerator denominator);
    do numerator <- int32 (hd_cons (Z.rem numerator denominator) (hd_low two_digits));
    do d <- int32 (hd_cons quotient_high (Z.quot numerator denominator));
    Some (d :: t', Z.rem numerator denominator)
  end.
Definition scale_down (ds : list Z) (denominator : Z) : option (list Z * Z) :=
  if (1 <? denominator) && (denominator <? radix_root) then scale_down_loop ds denominator else None.

(** bigint_digit_to_bigint, numbers.c:1733-1745. *)
Definition digit_to_bigint (digit : Z) (neg : bool) : bigint :=
  if digit =? 0 then make_zero else BI neg [digit].

(** bigint_divide_unsigned_small_denominator, numbers.c:1666-1682. *)
Definition divide_small (n : list Z) (d : Z) (q_neg r_neg : bool) : option (bigint * bigint) :=
  do (q, r) <- scale_down n d;
  Some (trim (BI q_neg q), digit_to_bigint r r_neg).

(** bigint_remainder_unsigned_small_denominator, numbers.c:1713-1731. *)
Fixpoint remainder_small_loop (ds : list Z) (d : Z) : option Z :=
  match ds with
  | [] => Some 0
  | two_digits :: t =>
    do r <- remainder_small_loop t d;
    do a <- int32 (hd_cons r (hd_high two_digits));
    do b <- int32 (hd_cons (Z.rem a d) (hd_low two_digits));
    int32 (Z.rem b d)
  end.
Definition remainder_small (n : list Z) (d : Z) (neg : bool) : option bigint :=
  if (1 <? d) && (d <? radix_root) then
    do r <- remainder_small_loop n d; Some (digit_to_bigint r neg)
  else None.

(** BDDS_MULSUB, numbers.c:1598-1611: new value of [un] and the carry. *)
Definition bdds_mulsub (vn un guess carry_in : Z) : option (Z * Z) :=
  do product <- int32 (vn * guess + carry_in);
  do diff <- int32 (un - hd_low product);
  if diff <? 0
  then Some (diff + radix_root, hd_high product + 1)
  else Some (diff, hd_high product).
(** BDDS_ADD, numbers.c:1613-1627. *)
Definition bdds_add (vn un carry_in : Z) : option (Z * Z) :=
  do sum <- int32 (vn + un + carry_in);
  if sum <? radix_root then Some (sum, 0) else Some (sum - radix_root, 1).
(** bigint_digit_divide_subtract, numbers.c:1629-1661: the quotient half-digit and the
    three words u[0], u[1], u[2] afterwards. *)
Definition digit_divide_subtract (v1 v2 guess : Z) (u : Z * Z * Z)
  : option (Z * (Z * Z * Z)) :=
  let '(u0, u1, u2) := u in
  do (u2', c) <- bdds_mulsub v2 u2 guess 0;
  do (u1', carry) <- bdds_mulsub v1 u1 guess c;
  if carry =? 0 then Some (guess, (u0, u1', u2')) else
  do diff <- int32 (u0 - carry);
  if diff <? 0 then
    let u0' := diff + radix in
    do (u2'', c) <- bdds_add v2 u2' 0;
    do (u1'', c) <- bdds_add v1 u1' c;
    Some (guess - 1, ((if c =? 1 then u0' + 1 else u0'), u1'', u2''))
  else Some (guess, (diff, u1', u2')).

(** The loop of BDD_STEP, numbers.c:1549-1555.  The comparand grows by v1*2^15 >= 1 each
    time and the loop stops at 2^30, so [fuel] 2^30 would be enough; with a normalized
    divisor three rounds are (numbers.c gives the loop no bound). *)
Fixpoint bdd_loop (fuel : nat) (v1 v2 guess comparand : Z) : option Z :=
  match fuel with
  | O => None
  | S fuel' =>
    do product <- int32 (guess * v2);
    if comparand <? product then
      do comparand' <- int32 (comparand + Z.shiftl v1 15);
      if radix <=? comparand' then Some (guess - 1)
      else bdd_loop fuel' v1 v2 (guess - 1) comparand'
    else Some guess
  end.
(** BDD_STEP, numbers.c:1535-1557. *)
Definition bdd_step (v1 v2 : Z) (u : Z * Z * Z) : option (Z * (Z * Z * Z)) :=
  let '(uj, uj1, uj2) := u in
  do (guess, comparand) <-
    (if uj =? v1 then
       do c <- int32 (hd_cons (uj1 + v1) uj2); Some (radix_root - 1, c)
     else
       do uu <- int32 (hd_cons uj uj1);
       do c <- int32 (hd_cons (Z.rem uu v1) uj2);
       Some (Z.quot uu v1, c));
  do guess' <- bdd_loop 4 v1 v2 guess comparand;
  digit_divide_subtract v1 v2 guess' u.

(** bigint_digit_divide, numbers.c:1558-1594: quotient digit and remainder. *)
Definition digit_divide (uh ul v : Z) : option (Z * Z) :=
  if (uh =? 0) && (ul <? v) then Some (0, ul)
  else if (uh =? 0) && (ul =? v) then Some (1, 0)
  else
    let v1 := hd_high v in
    let v2 := hd_low v in
    do (q1, (_, a1, a2)) <- bdd_step v1 v2 (hd_high uh, hd_low uh, hd_high ul);
    do (q2, (_, b2, b3)) <- bdd_step v1 v2 (a1, a2, hd_low ul);
    do q <- int32 (hd_cons q1 q2);
    do r <- int32 (hd_cons b2 b3);
    Some (q, r).

(** bigint_destructive_normalization, numbers.c:1485-1508; [room] says whether the
    target has one digit more than the source. *)
Fixpoint normalize_loop (ds : list Z) (shift carry : Z) : option (list Z * Z) :=
  match ds with
  | [] => Some ([], carry)
  | digit :: t =>
    do d <- int32 (Z.lor (Z.shiftl (Z.land digit (Z.shiftl 1 (digit_length - shift) - 1)) shift) carry);
    do (t', c) <- normalize_loop t shift (Z.shiftr digit (digit_length - shift));
    Some (d :: t', c)
  end.
Definition normalization (ds : list Z) (shift : Z) (room : bool) : option (list Z) :=
  do (t, carry) <- normalize_loop ds shift 0;
  if room then Some (t ++ [carry]) else if carry =? 0 then Some t else None.

(** bigint_destructive_unnormalization, numbers.c:1510-1529; the scan runs from the most
    significant digit down. *)
Fixpoint unnormalize_loop (ds : list Z) (shift : Z) : option (list Z * Z) :=
  match ds with
  | [] => Some ([], 0)
  | digit :: t =>
    do (t', carry) <- unnormalize_loop t shift;
    do d <- int32 (Z.lor (Z.shiftr digit shift) carry);
    do c <- int32 (Z.shiftl (Z.land digit (Z.shiftl 1 shift - 1)) (digit_length - shift));
    Some (d :: t', c)
  end.
Definition unnormalization (ds : list Z) (shift : Z) : option (list Z) :=
  do (t, carry) <- unnormalize_loop ds shift;
  if carry =? 0 then Some t else None.

(** The loops that shift the leading divisor digit up to half the radix,
    numbers.c:1237-1243 and 1437-1441.  A digit that is not zero needs at most 29
    rounds (zero would never stop). *)
Fixpoint norm_shift (fuel : nat) (v1 shift : Z) : option (Z * Z) :=
  match fuel with
  | O => None
  | S fuel' =>
    if v1 <? radix / 2 then norm_shift fuel' (Z.shiftl v1 1) (shift + 1)
    else Some (v1, shift)
  end.

(** The subtracting loop of bigint_divide_subtract, numbers.c:1363-1383: the new digits
    of u, the rest of u and the carry. *)
Fixpoint mulsub_loop (vs us : list Z) (gh gl carry : Z) : option (list Z * list Z * Z) :=
  match vs with
  | [] => Some ([], us, carry)
  | v :: vs' =>
    match us with
    | [] => None
    | u :: us' =>
      let vl := hd_low v in
      let vh := hd_high v in
      do pl <- int32 (vl * gl + hd_low carry);
      do ph <- int32 (vl * gh + vh * gl + hd_high pl + hd_high carry);
      do diff <- int32 (u - hd_cons (hd_low ph) (hd_low pl));
      if diff <? 0 then
        do c <- int32 (vh * gh + hd_high ph + 1);
        do (t, rest, k) <- mulsub_loop vs' us' gh gl c;
        Some ((diff + radix) :: t, rest, k)
      else
        do c <- int32 (vh * gh + hd_high ph);
        do (t, rest, k) <- mulsub_loop vs' us' gh gl c;
        Some (diff :: t, rest, k)
    end
  end.
(** The loop that adds v back, numbers.c:1400-1412. *)
Fixpoint addback_loop (vs us : list Z) (carry : Z) : option (list Z * Z) :=
  match vs with
  | [] => Some ([], carry)
  | v :: vs' =>
    match us with
    | [] => None
    | u :: us' =>
      do sum <- int32 (v + u + carry);
      if sum <? radix then do (t, c) <- addback_loop vs' us' 0; Some (sum :: t, c)
      else do (t, c) <- addback_loop vs' us' 1; Some ((sum - radix) :: t, c)
    end
  end.
(** bigint_divide_subtract, numbers.c:1342-1420: the quotient digit and the digits of u
    from the current position up. *)
Definition divide_subtract (v : list Z) (guess : Z) (u : list Z) : option (Z * list Z) :=
  if guess =? 0 then Some (0, u) else
  do (t, rest, carry) <- mulsub_loop v u (hd_high guess) (hd_low guess) 0;
  if carry =? 0 then Some (guess, t ++ rest) else
  match rest with
  | [] => None
  | top :: above =>
    do diff <- int32 (top - carry);
    if diff <? 0 then
      do (t', c) <- addback_loop v t 0;
      let top' := diff + radix in
      if c =? 1 then
        do sum <- int32 (top' + c);
        Some (guess - 1, t' ++ (if sum <? radix then sum else sum - radix) :: above)
      else Some (guess - 1, t' ++ top' :: above)
    else Some (guess, t ++ diff :: above)
  end.

(** The loop that corrects the guess, numbers.c:1312-1332.  [ch] grows by v1 each round
    and the loop stops at 2^30; with a normalized divisor three rounds are enough. *)
Fixpoint guess_loop (fuel : nat) (v1 v2h v2l guess ch cl : Z) : option Z :=
  match fuel with
  | O => None
  | S fuel' =>
    let gl := hd_low guess in
    let gh := hd_high guess in
    do pl <- int32 (v2l * gl);
    do ph <- int32 (v2l * gh + v2h * gl + hd_high pl);
    do pl' <- int32 (hd_cons (hd_low ph) (hd_low pl));
    do ph' <- int32 (v2h * gh + hd_high ph);
    if (ph' <? ch) || ((ch =? ph') && (pl' <=? cl)) then Some guess else
    do ch' <- int32 (ch + v1);
    if radix <=? ch' then Some (guess - 1)
    else guess_loop fuel' v1 v2h v2l (guess - 1) ch' cl
  end.
(** The first part of the loop body of bigint_divide_unsigned_normalized,
    numbers.c:1294-1311. *)
Definition first_guess (uj uj1 uj2 v1 : Z) : option (Z * Z) :=
  if uj =? v1 then do ch <- int32 (uj1 + v1); Some (radix - 1, ch)
  else digit_divide uj uj1 v1.
(** bigint_divide_unsigned_normalized, numbers.c:1266-1340: [j] quotient digits remain to
    be found; the digits of u from position j-1 up are the current window. *)
Fixpoint divide_normalized (j : nat) (u v : list Z) : option (list Z * list Z) :=
  match j with
  | O => Some (u, [])
  | S j' =>
    let n := length v in
    do v1 <- nth_error v (n - 1);
    do v2 <- nth_error v (n - 2);
    let w := skipn j' u in
    do uj <- nth_error w n;
    do uj1 <- nth_error w (n - 1);
    do uj2 <- nth_error w (n - 2);
    do (guess, ch) <- first_guess uj uj1 uj2 v1;
    do guess' <- guess_loop 4 v1 (hd_high v2) (hd_low v2) guess ch uj2;
    do (qj, w') <- divide_subtract v guess' w;
    do (u', q) <- divide_normalized j' (firstn j' u ++ w') v;
    Some (u', q ++ [qj])
  end.

(** bigint_divide_unsigned_large_denominator, numbers.c:1213-1264 (both results are
    computed; the callers that want only one drop the other). *)
Definition divide_large (n d : list Z) (q_neg r_neg : bool) : option (bigint * bigint) :=
  if (length d <=? 1)%nat then None else
  do top <- nth_error d (length d - 1);
  do (_, shift) <- norm_shift 31 top 0;
  let j := (length n + 1 - length d)%nat in
  if shift =? 0 then
    do (u, q) <- divide_normalized j (n ++ [0]) d;
    Some (trim (BI q_neg q), trim (BI r_neg u))
  else
    do u <- normalization n shift true;
    do v <- normalization d shift false;
    do (u', q) <- divide_normalized j u v;
    do r <- unnormalization u' shift;
    Some (trim (BI q_neg q), trim (BI r_neg r)).

(** The digit loop of bigint_divide_unsigned_medium_denominator, numbers.c:1459-1466; the
    scan runs from the most significant digit down. *)
Fixpoint medium_loop (ds : list Z) (d : Z) : option (list Z * Z) :=
  match ds with
  | [] => Some ([], 0)
  | u :: t =>
    do (t', r) <- medium_loop t d;
    do (qj, r') <- digit_divide r u d;
    Some (qj :: t', r')
  end.
(** bigint_divide_unsigned_medium_denominator, numbers.c:1422-1483. *)
Definition divide_medium (n : list Z) (d : Z) (q_neg r_neg : bool) : option (bigint * bigint) :=
  do (d', shift) <- norm_shift 31 d 0;
  do q <- (if shift =? 0 then Some n else normalization n shift true);
  do (q', r) <- medium_loop q d';
  Some (trim (BI q_neg q'),
        digit_to_bigint (if shift =? 0 then r else Z.shiftr r shift) r_neg).

(** kno_bigint_divide, numbers.c:324-391: [None] for the outcome 1 (divisor zero) is
    [Some None] here, an inner [None] of the algorithms stays [None]. *)
Definition divide_cases (n d : bigint) (q_neg r_neg : bool) : option (bigint * bigint) :=
  match compare_unsigned (bdig n) (bdig d) with
  | Eq => Some (make_one q_neg, make_zero)
  | Lt => Some (make_zero, bcopy n)
  | Gt =>
    match bdig d with
    | [digit] =>
      if digit =? 1 then Some (maybe_new_sign n q_neg, make_zero)
      else if digit <? radix_root then divide_small (bdig n) digit q_neg r_neg
      else divide_medium (bdig n) digit q_neg r_neg
    | _ => divide_large (bdig n) (bdig d) q_neg r_neg
    end
  end.
Definition bigint_divide (n d : bigint) : option (option (bigint * bigint)) :=
  if bzero_p d then Some None
  else if bzero_p n then Some (Some (bcopy n, bcopy n))
  else
    let r_neg := bneg n in
    let q_neg := if bneg d then negb r_neg else r_neg in
    do qr <- divide_cases n d q_neg r_neg; Some (Some qr).

(** kno_bigint_quotient, numbers.c:393-442; [Some None] is BIGINT_OUT_OF_BAND (the
    divisor is zero). *)
Definition bigint_quotient (n d : bigint) : option (option bigint) :=
  if bzero_p d then Some None
  else if bzero_p n then Some (Some (bcopy n))
  else
    let q_neg := if bneg d then negb (bneg n) else bneg n in
    match compare_unsigned (bdig n) (bdig d) with
    | Eq => Some (Some (make_one q_neg))
    | Lt => Some (Some make_zero)
    | Gt =>
      match bdig d with
      | [digit] =>
        if digit =? 1 then Some (Some (maybe_new_sign n q_neg))
        else if digit <? radix_root
        then do (q, _) <- divide_small (bdig n) digit q_neg false; Some (Some q)
        else do (q, _) <- divide_medium (bdig n) digit q_neg false; Some (Some q)
      | _ => do (q, _) <- divide_large (bdig n) (bdig d) q_neg false; Some (Some q)
      end
    end.
(** kno_bigint_remainder, numbers.c:444-486. *)
Definition bigint_remainder (n d : bigint) : option (option bigint) :=
  if bzero_p d then Some None
  else if bzero_p n then Some (Some (bcopy n))
  else
    match compare_unsigned (bdig n) (bdig d) with
    | Eq => Some (Some make_zero)
    | Lt => Some (Some (bcopy n))
    | Gt =>
      match bdig d with
      | [digit] =>
        if digit =? 1 then Some (Some make_zero)
        else if digit <? radix_root
        then do r <- remainder_small (bdig n) digit (bneg n); Some (Some r)
        else do (_, r) <- divide_medium (bdig n) digit false (bneg n); Some (Some r)
      | _ => do (_, r) <- divide_large (bdig n) (bdig d) false (bneg n); Some (Some r)
      end
    end.

(** ** Conversions *)

(** The digit loop of kno_long_to_bigint and its three relatives, numbers.c:500-505,
    530-535, 560-565, 590-595: three digits are enough for 64 bits. *)
Fixpoint word_digits (fuel : nat) (acc : Z) : list Z :=
  match fuel with
  | O => []
  | S fuel' =>
    Z.land acc (radix - 1) ::
    (let acc' := Z.shiftr acc digit_length in
     if acc' =? 0 then [] else word_digits fuel' acc')
  end.
(** kno_long_to_bigint and kno_long_long_to_bigint, numbers.c:489-548; [n] is in the
    range of a long long other than its least value, whose negation overflows. *)
Definition long_long_to_bigint (n : Z) : option bigint :=
  if n =? 0 then Some make_zero
  else if n =? 1 then Some (make_one false)
  else if n =? -1 then Some (make_one true)
  else if (-9223372036854775807 <=? n) && (n <=? 9223372036854775807)
  then Some (BI (n <? 0) (word_digits 3 (Z.abs n))) else None.
(** kno_ulong_to_bigint and kno_ulong_long_to_bigint, numbers.c:550-606: the test
    [n == -1] is copied from the signed version and holds for 2^64-1. *)
Definition ulong_to_bigint (n : Z) : bigint :=
  if n =? 0 then make_zero
  else if n =? 1 then make_one false
  else if n =? 18446744073709551615 then make_one true
  else BI false (word_digits 3 n).

(** A [long] variable is given the value [z]. *)
Definition int64 (z : Z) : option Z :=
  if (-9223372036854775808 <=? z) && (z <=? 9223372036854775807) then Some z else None.
(** kno_bigint_to_long and kno_bigint_to_long_long, numbers.c:608-622, 632-645; the
    digits are taken from the most significant one down. *)
Fixpoint to_long_loop (ds : list Z) (acc : Z) : option Z :=
  match ds with
  | [] => Some acc
  | d :: t => do s <- int64 (Z.shiftl acc digit_length); do a <- int64 (s + d); to_long_loop t a
  end.
Definition bigint_to_long (b : bigint) : option Z :=
  if bzero_p b then Some 0 else
  do acc <- to_long_loop (rev (bdig b)) 0;
  Some (if bneg b then - acc else acc).

(** kno_bigint_fits_in_word_p with twos_complement_p, numbers.c:736-756; [None] is the
    read before the first digit that a word length of 1 would give. *)
Definition bits_to_digits (n : Z) : Z := (n + (digit_length - 1)) / digit_length.
Definition fits_in_word (b : bigint) (word_length : Z) (twos : bool) : option bool :=
  let n_bits := if twos then word_length - 1 else word_length in
  if n_bits <=? 0 then None else
  let len := Z.of_nat (blength b) in
  let max_digits := bits_to_digits n_bits in
  if len <? max_digits then Some true
  else if len =? max_digits then
    do top <- nth_error (bdig b) (blength b - 1);
    Some (top <? Z.shiftl 1 (n_bits - (len - 1) * digit_length))
  else Some false.

(** kno_digit_stream_to_bigint, numbers.c:796-843.  [ds] are the digits that the producer
    gives, first one first.  [None] inside is the result NULL (a digit below zero or
    above the radix; a digit equal to the radix is let through). *)
Fixpoint bit_count (fuel : nat) (r : Z) : Z :=
  match fuel with
  | O => 0
  | S fuel' => if 0 <? r then 1 + bit_count fuel' (Z.shiftr r 1) else 0
  end.
Fixpoint stream_loop (ds : list Z) (rdx : Z) (acc : list Z) : option (option (list Z)) :=
  match ds with
  | [] => Some (Some acc)
  | digit :: t =>
    if (digit <? 0) || (rdx <? digit) then Some None else
    do a1 <- scale_up acc rdx;
    do a2 <- destructive_add a1 digit;
    stream_loop t rdx a2
  end.
Definition digit_stream_to_bigint (ds : list Z) (rdx : Z) (neg : bool)
  : option (option bigint) :=
  if negb ((1 <? rdx) && (rdx <=? radix_root)) then None else
  match ds with
  | [] => Some (Some make_zero)
  | [digit] =>
    if (digit <? 0) || (rdx <? digit) then Some None
    else do b <- long_long_to_bigint (if neg then - digit else digit); Some (Some b)
  | _ =>
    let len := bits_to_digits (Z.of_nat (length ds) * bit_count 32 rdx) in
    do r <- stream_loop ds rdx (repeat 0 (Z.to_nat len));
    Some (match r with Some acc => Some (trim (BI neg acc)) | None => None end)
  end.

(** kno_bigint_to_digit_stream, numbers.c:845-869: the digits given to the consumer,
    least significant first.  [scan] is the number of digits still looked at; the
    division always works on the whole array.  [fuel] bounds the number of rounds. *)
Fixpoint to_stream_loop (fuel : nat) (ds : list Z) (scan : nat) (rdx : Z) : option (list Z) :=
  match scan with
  | O => Some []
  | S scan' =>
    match fuel with
    | O => None
    | S fuel' =>
      do top <- nth_error ds scan';
      if top =? 0 then to_stream_loop fuel' ds scan' rdx
      else
        do (ds', r) <- scale_down ds rdx;
        do t <- to_stream_loop fuel' ds' scan rdx;
        Some (r :: t)
    end
  end.
Definition bigint_to_digit_stream (b : bigint) (rdx : Z) : option (list Z) :=
  if negb ((1 <? rdx) && (rdx <=? radix_root)) then None
  else to_stream_loop (32 * blength b) (bdig b) (blength b) rdx.

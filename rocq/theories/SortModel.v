(** * The in-place quicksort used throughout the library.

    Source: /repo/src/lisp/choices.c:110-163 (swap, atomic_sortedp, atomic_sort,
    cons_sort) and /repo/src/lisp/compare.c:195-215 (lispval_sort): three copies of
    the same algorithm that differ in the comparison. *)

From Coq Require Export List Arith Bool.
Export ListNotations.

Notation "'do' x <- e ; k" := (match e with Some x => k | None => None end)
  (at level 200, x pattern, e at level 100, k at level 200, right associativity).

Section QSort.
Context {A : Type}.
(** The comparison.  [None] stands for an outcome that depends on addresses (a heap
    pointer compared as a word). *)
Variable cmp : A -> A -> option comparison.

(** [v[i]]; [None] is an out-of-bounds read. *)
Definition get (v : list A) (i : nat) : option A := nth_error v i.
(** [v[i] = x]; [None] is an out-of-bounds write. *)
Fixpoint set (v : list A) (i : nat) (x : A) : option (list A) :=
  match v, i with
  | [], _ => None
  | _ :: t, O => Some (x :: t)
  | a :: t, S i' => do t' <- set t i' x; Some (a :: t')
  end.
(** swap(&v[i],&v[j]), choices.c:111-117. *)
Definition swap (v : list A) (i j : nat) : option (list A) :=
  do x <- get v i; do y <- get v j;
  do v1 <- set v i y; set v1 j x.

(** atomic_sortedp, choices.c:119-125: strictly ascending. *)
Fixpoint sortedp (v : list A) : option bool :=
  match v with
  | a :: (b :: _) as t =>
    do c <- cmp a b;
    match c with Lt => sortedp t | _ => Some false end
  | _ => Some true
  end.

(** [do --j; while (v[j] > v[0])], choices.c:133, 152; compare.c:203.
    Running below index 0 is an out-of-bounds read. *)
Fixpoint scan_down (v : list A) (j : nat) : option nat :=
  match j with
  | O => None
  | S j' =>
    do x <- get v j'; do p <- get v 0; do c <- cmp x p;
    match c with Gt => scan_down v j' | _ => Some j' end
  end.
(** [do ++i; while (i < j && v[i] < v[0])], choices.c:134, 153.  [fuel] bounds the
    number of steps; running out is an error result. *)
Fixpoint scan_up (fuel : nat) (v : list A) (i j : nat) : option nat :=
  match fuel with
  | O => None
  | S f =>
    let i := S i in
    if i <? j then
      do x <- get v i; do p <- get v 0; do c <- cmp x p;
      match c with Lt => scan_up f v i j | _ => Some i end
    else Some i
  end.
(** The partition loop, choices.c:132-136, 151-155.  Returns the array and [j]. *)
Fixpoint partition (fuel : nat) (v : list A) (i j : nat) : option (list A * nat) :=
  match fuel with
  | O => None
  | S f =>
    do j <- scan_down v j;
    do i <- scan_up (S (length v)) v i j;
    if j <=? i then Some (v, j)
    else do v <- swap v i j; partition f v i j
  end.

(** atomic_sort ([check] = true: choices.c:127-144) and cons_sort ([check] = false:
    146-163, also lispval_sort, compare.c:195-215).  [entry] is true on a call of
    the function and false on the next round of its outer loop: the sortedness test
    is made on entry only.  The two sub-ranges are disjoint, so the model sorts them
    as separate lists. *)
Fixpoint qsort (check : bool) (fuel : nat) (entry : bool) (v : list A) : option (list A) :=
  match fuel with
  | O => None
  | S f =>
    do already <- (if check && entry then sortedp v else Some false);
    if (already : bool) then Some v
    else
      let n := length v in
      if n <=? 1 then Some v
      else
        do v <- swap v 0 (n / 2);
        do (v, j) <- partition (S n) v 0 n;
        do v <- swap v j 0;
        do p <- get v j;
        let ln := j in
        let rn := n - (S j) in
        if ln <? rn then
          do l <- qsort check f true (firstn j v);
          do r <- qsort check f false (skipn (S j) v);
          Some (l ++ p :: r)
        else
          do r <- qsort check f true (skipn (S j) v);
          do l <- qsort check f false (firstn j v);
          Some (l ++ p :: r)
  end.
Definition sort_vec (check : bool) (v : list A) : option (list A) :=
  qsort check (S (length v)) true v.
End QSort.

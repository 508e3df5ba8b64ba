(** * Choices (sets) and accumulating choices.

    Source: /repo/include/kno/choices.h:100-420, /repo/src/lisp/choices.c.

    Not modelled: reference counts, memory release, locks (each operation is taken to
    be atomic), copying of static objects (copy_static returns an equal value).
    [None] is undefined behaviour, abort() or exhausted fuel. *)

From Verif Require Export ValueModel SortModel.
Local Open Scope N_scope.

(** Constants, ptr.h:746-768: KNO_CONSTANT(i) = 1|(i<<2). *)
Definition KVOID : val := VAtom 1.
Definition KEMPTY : val := VAtom 13.
Definition NEVERSEEN : val := VAtom 81.
(** EMPTYP, VOIDP: ptr.h:786-807. *)
Definition emptyp (v : val) : bool := match v with VAtom w => w =? 13 | _ => false end.
Definition voidp (v : val) : bool := match v with VAtom w => w =? 1 | _ => false end.

(** Comparison of two words.  The word of a heap object is its address, which the
    model does not have: [None]. *)
Definition wcmp (x y : val) : option comparison :=
  match x, y with VAtom a, VAtom b => Some (N.compare a b) | _, _ => None end.
(** [x == y] in code that is specialised for atoms. *)
Definition weq (x y : val) : option bool :=
  match x, y with VAtom a, VAtom b => Some (a =? b) | _, _ => None end.
Definition is_eq (c : comparison) : bool := match c with Eq => true | _ => false end.

(** ** Sorting and compressing, choices.c:107-200 *)

(** atomic_sort / cons_sort, choices.c:127-163. *)
Definition choice_cmp (atomic : bool) : val -> val -> option comparison :=
  if atomic then wcmp else fun x y => Some (cons_compare x y).
Definition choice_sort (atomic : bool) (v : list val) : option (list val) :=
  sort_vec (choice_cmp atomic) atomic v.

(** compress_choice, choices.c:167-200.  The result is the prefix that remains.
    The inner loops that skip a run of duplicates are folded into the outer loop. *)
Fixpoint compress_loop (atomic : bool) (pt : val) (scan : list val) : option (list val) :=
  match scan with
  | [] => Some []
  | elt :: scan' =>
    if emptyp elt then compress_loop atomic pt scan'
    else
      do same <- (if atomic then weq pt elt else Some (is_eq (cons_compare pt elt)));
      if (same : bool) then compress_loop atomic pt scan'
      else do r <- compress_loop atomic elt scan'; Some (elt :: r)
  end.
Fixpoint compress (atomic : bool) (v : list val) : option (list val) :=
  match v with
  | [] => Some []
  | pt :: scan =>
    if emptyp pt then compress atomic scan
    else do r <- compress_loop atomic pt scan; Some (pt :: r)
  end.

(** ** Binary search: choice_containsp, choices.c:205-225 (fast_choice_containsp,
    choices.h:386-408, is the same code).  [bottom] and [top] are offsets from the
    start of the data. *)
Definition zget (v : list val) (i : Z) : option val :=
  if (i <? 0)%Z then None else nth_error v (Z.to_nat i).
Fixpoint bsearch (fuel : nat) (x : val) (v : list val) (bottom top : Z) : option bool :=
  if (top <? bottom)%Z then Some false
  else match fuel with
  | O => None
  | S f =>
    let middle := (bottom + Z.quot (top - bottom) 2)%Z in
    do m <- zget v middle;
    match x with
    | VAtom w =>
      match m with
      | VAtom w' =>
        if w =? w' then Some true
        else if w <? w' then bsearch f x v bottom (middle - 1)
        else bsearch f x v (middle + 1) top
      | _ => bsearch f x v bottom (middle - 1)
      end
    | _ =>
      match cons_compare x m with
      | Eq => Some true
      | Lt => bsearch f x v bottom (middle - 1)
      | Gt => bsearch f x v (middle + 1) top
      end
    end
  end.
Definition choice_containsp (x : val) (v : list val) : option bool :=
  bsearch (S (length v)) x v 0 (Z.of_nat (length v) - 1).

(** ** Simple values: a non-choice value (or the empty choice) or a choice object
    with its atomic flag and elements (choices.h:100-147). *)
Inductive simple :=
| SVal (v : val)
| SChoice (atomic : bool) (l : list val).
(** The value seen by the comparison functions. *)
Definition toval (s : simple) : val :=
  match s with SVal v => v | SChoice _ l => VChoice l end.
Definition choicep (s : simple) : bool := match s with SChoice _ _ => true | _ => false end.
(** KNO_CHOICE_SIZE, choices.h:217-221. *)
Definition choice_size (s : simple) : nat :=
  match s with SVal v => if emptyp v then 0 else 1 | SChoice _ l => length l end.

(** Configuration: kno_smallchoice_threshold, kno_bigchoice_threshold,
    kno_bigsort_blocksize (choices.h:254-275, choices.c:22-24). *)
Record config := { small_threshold : nat; big_threshold : nat; block_size : nat }.

(** ** Merging, choices.c:618-795 *)

(** struct KNO_CHOICE_SCANNER, 636-638; [rest] is the range ptr..lim. *)
Record scanner := { top : val; rest : list val }.

Section Merge.
Variable atomic : bool.
(** [top != last] / LISP_EQUAL(last,top). *)
Definition scan_eq (x y : val) : option bool := if atomic then weq x y else Some (lequal x y).

(** shuffle_scanners, 640-659. *)
Fixpoint drop_exhausted (v : list scanner) : list scanner :=
  match v with
  | s :: v' => match rest s with [] => drop_exhausted v' | _ => v end
  | [] => []
  end.
Fixpoint insert_scanner (s : scanner) (v : list scanner) : option (list scanner) :=
  match v with
  | [] => Some [s]
  | t :: v' =>
    do c <- choice_cmp atomic (top s) (top t);
    match c with
    | Gt => do r <- insert_scanner s v'; Some (t :: r)
    | _ => Some (s :: v)
    end
  end.
Definition shuffle_scanners (s : scanner) (v : list scanner) : option (list scanner) :=
  match rest s with
  | [] => Some (drop_exhausted v)
  | _ => insert_scanner s v
  end.
(** atomic_pop, cons_pop, 661-669, 696-704: advance over elements equal to [last]. *)
Fixpoint skip_equal (last : val) (l : list val) : option (list val) :=
  match l with
  | [] => Some []
  | x :: l' => do e <- scan_eq x last; if (e : bool) then skip_equal last l' else Some l
  end.
Definition pop (s : scanner) (last : val) : option scanner :=
  do l <- skip_equal last (tl (rest s));
  Some (match l with [] => {| top := top s; rest := [] |} | x :: _ => {| top := x; rest := l |} end).
(** The loop over the last scanner, 684-691, 722-731. *)
Fixpoint copy_rest (last : val) (l : list val) : option (list val) :=
  match l with
  | [] => Some []
  | x :: l' =>
    do e <- scan_eq x last;
    if (e : bool) then copy_rest last l'
    else do r <- copy_rest x l'; Some (x :: r)
  end.
(** atomic_scanner_loop 671-694, scanner_loop 706-732.  The result is what is
    written to the output vector. *)
Fixpoint scanner_loop (fuel : nat) (last : val) (v : list scanner) : option (list val) :=
  match v with
  | [] => Some []
  | [s] => copy_rest last (rest s)
  | s0 :: ((s1 :: _) as others) =>
    match fuel with
    | O => None
    | S f =>
      do e <- scan_eq (top s0) last;
      let last' := if (e : bool) then last else top s0 in
      do s0' <- pop s0 last';
      do v' <- match rest s0' with
               | [] => shuffle_scanners s0' others
               | _ =>
                 do c <- choice_cmp atomic (top s0') (top s1);
                 match c with Lt => Some (s0' :: others) | _ => shuffle_scanners s0' others end
               end;
      do r <- scanner_loop f last' v';
      Some (if e then r else top s0 :: r)
    end
  end.
(** qsort(3) by [top] (compare_scanners_atomic, compare_scanners).  The C library
    leaves the order of equal tops open; the proofs use only that the result is
    sorted. *)
Fixpoint sort_scanners (v : list scanner) : option (list scanner) :=
  match v with
  | [] => Some []
  | s :: v' => do r <- sort_scanners v'; insert_scanner s r
  end.
Definition total_rest (v : list scanner) : nat :=
  list_sum (map (fun s => length (rest s)) v).
Definition run_scanners (v : list scanner) : option (list val) :=
  do v <- sort_scanners v;
  scanner_loop (S (total_rest v)) NEVERSEEN v.
End Merge.

(** A scanner on a data vector: [top = data[0]] is a read out of bounds if the vector
    is empty. *)
Fixpoint make_scanners (l : list (list val)) : option (list scanner) :=
  match l with
  | [] => Some []
  | v :: l' =>
    match v with
    | [] => None
    | x :: _ => do r <- make_scanners l'; Some ({| top := x; rest := v |} :: r)
    end
  end.

(** kno_big_sort and merge_scanners, choices.c:1428-1500: sort blocks of
    [block_size] elements and merge them.  A block size of 0 is a division by zero. *)
Fixpoint blocks (n : nat) (span : nat) (items : list val) : list (list val) :=
  match n with
  | O => match items with [] => [] | _ => [items] end
  | S n' => firstn span items :: blocks n' span (skipn span items)
  end.
Fixpoint sort_blocks (atomic : bool) (l : list (list val)) : option (list (list val)) :=
  match l with
  | [] => Some []
  | b :: l' => do b' <- choice_sort atomic b; do r <- sort_blocks atomic l'; Some (b' :: r)
  end.
Definition big_sort (cf : config) (atomic : bool) (items : list val) : option (list val) :=
  match block_size cf with
  | O => None
  | S _ =>
    let n := Nat.div (length items) (block_size cf) in
    do bs <- sort_blocks atomic (blocks n (block_size cf) items);
    do sc <- make_scanners bs;
    run_scanners atomic sc
  end.

(** ** kno_init_choice, choices.c:286-376, and kno_make_choice, choices.h:172-176.

    The flags that matter here: choices.h:148-170. *)
Record cflags := { f_sort : bool; f_compress : bool; f_realloc : bool;
                   f_atomic : bool; f_conses : bool }.
Definition init_choice (cf : config) (data : list val) (fl : cflags) : option simple :=
  let n := length data in
  match data with
  | [] => if f_realloc fl then Some (SVal KEMPTY) else Some (SVal KEMPTY)
  | [x] => if f_realloc fl then Some (SVal x) else Some (SChoice
             (if f_atomic fl then true else if f_conses fl then false else forallb atomicp data) [x])
  | _ =>
    let atomic := if f_atomic fl then true
                  else if f_conses fl then false else forallb atomicp data in
    do newdata <-
      (if f_sort fl then
         if (0 <? big_threshold cf)%nat && (big_threshold cf <? n)%nat
         then big_sort cf (f_atomic fl) data
         else do v <- choice_sort atomic data; compress atomic v
       else if f_compress fl then compress atomic data
       else Some data);
    match newdata with
    | [] => Some (SVal KEMPTY)
    | [x] => if f_realloc fl then Some (SVal x) else Some (SChoice atomic [x])
    | _ => Some (SChoice atomic newdata)
    end
  end.

(** merge_choices, choices.c:758-795: atomic flag and elements of each choice. *)
Definition merge_choices (cf : config) (l : list (bool * list val)) : option simple :=
  let atomic := forallb fst l in
  do sc <- make_scanners (map snd l);
  do out <- run_scanners atomic sc;
  init_choice cf out {| f_sort := false; f_compress := false; f_realloc := true;
                        f_atomic := atomic; f_conses := negb atomic |}.

(** ** Accumulating choices (prechoices), choices.h:180-200 *)
Record pre := {
  data : list simple;        (* prechoice_data .. prechoice_write *)
  cap : nat;                 (* prechoice_limit - prechoice_data *)
  nested : nat;
  psize : nat;
  muddled : bool;
  patomic : bool;
  pnorm : option simple;     (* prechoice_normalized; None is VOID *)
}.
(** Any Lisp value as an argument of the choice operations. *)
Inductive lv := Simple (s : simple) | Pre (p : pre).

(** kno_init_prechoice, choices.c:423-449. *)
Definition init_prechoice (lim : nat) : pre :=
  {| data := []; cap := lim; nested := 0; psize := 0; muddled := false; patomic := true; pnorm := None |}.

Definition data_vals (l : list simple) : option (list val) :=
  fold_right (fun s r => do r <- r; match s with SVal v => Some (v :: r) | SChoice _ _ => None end) (Some []) l.
Definition data_choices (l : list simple) : option (list (bool * list val)) :=
  fold_right (fun s r => do r <- r; match s with SChoice a v => Some ((a, v) :: r) | SVal _ => None end) (Some []) l.

(** cache_norm, choices.c:50-73. *)
Definition cache_norm (p : pre) (norm : simple) : pre :=
  {| data := [norm]; cap := cap p; muddled := muddled p; pnorm := Some norm;
     nested := if choicep norm then 1 else 0;
     psize := match norm with SChoice _ l => length l | SVal _ => 1 end;
     patomic := match norm with SChoice a _ => a | SVal v => atomicp v end |}.

(** prechoice_append, choices.c:802-850.  abort() (809-812, 815-818) when more
    elements than [psize] turn up. *)
Fixpoint append_data (limit : nat) (l : list simple) : option (list val) :=
  match l with
  | [] => Some []
  | s :: l' =>
    match limit with
    | O => None
    | S _ =>
      match s with
      | SVal v => do r <- append_data (limit - 1) l'; Some (v :: r)
      | SChoice _ v =>
        if (limit <? length v)%nat then None
        else do r <- append_data (limit - length v) l'; Some (v ++ r)
      end
    end
  end.
Definition prechoice_append (cf : config) (p : pre) : option simple :=
  do l <- append_data (psize p) (data p);
  match l with
  | _ :: _ :: _ =>
    init_choice cf l {| f_sort := true; f_compress := false; f_realloc := false;
                        f_atomic := patomic p; f_conses := negb (patomic p) |}
  | [x] => Some (SVal x)
  | [] => None
  end.

(** kno_normalize_choice, choices.c:482-602.  Returns the simple value and the state
    of the accumulator afterwards (the state matters when [destructive] is 0). *)
Definition normalize (cf : config) (p : pre) : option (simple * pre) :=
  match pnorm p with
  | Some v => Some (v, p)
  | None =>
    match data p with
    | [] => Some (SVal KEMPTY,
              {| data := []; cap := cap p; nested := nested p; psize := psize p;
                 muddled := muddled p; patomic := patomic p; pnorm := Some (SVal KEMPTY) |})
    | [d] => Some (d,
              {| data := [d]; cap := cap p; nested := nested p; psize := psize p;
                 muddled := muddled p; patomic := patomic p; pnorm := Some d |})
    | l =>
      do norm <-
        (if (nested p =? 0)%nat then
           do vals <- data_vals l;
           init_choice cf vals {| f_sort := muddled p; f_compress := negb (muddled p); f_realloc := false;
                                  f_atomic := patomic p; f_conses := negb (patomic p) |}
         else if (nested p =? length l)%nat then
           do cs <- data_choices l; merge_choices cf cs
         else if (small_threshold cf <? psize p)%nat then
           do vals <- data_vals (filter (fun s => negb (choicep s)) l);
           do cs <- data_choices (filter choicep l);
           let is_atomic := forallb atomicp vals in
           do s <- init_choice cf vals {| f_sort := true; f_compress := true; f_realloc := false;
                                          f_atomic := is_atomic; f_conses := negb is_atomic |};
           match s with
           | SChoice a v => merge_choices cf ((a, v) :: cs)
           | SVal _ => None  (* the structure is left uninitialised *)
           end
         else prechoice_append cf p);
      Some (norm, cache_norm p norm)
    end
  end.

(** kno_simplify_choice / kno_make_simple_choice: the value only. *)
Definition simplify (cf : config) (x : lv) : option simple :=
  match x with
  | Simple s => Some s
  | Pre p => do (s, _) <- normalize cf p; Some s
  end.

(** CONSP of a simple value. *)
Definition consp (s : simple) : bool :=
  match s with SVal v => negb (atomicp v) | SChoice _ _ => true end.
Definition atomic_simple (s : simple) : bool :=
  match s with SVal v => atomicp v | SChoice a _ => a end.
Definition is_empty (s : simple) : bool := match s with SVal v => emptyp v | _ => false end.

(** kno_make_prechoice, choices.c:386-421. *)
Definition make_prechoice (cf : config) (x y : lv) : option pre :=
  do nx <- simplify cf x; do ny <- simplify cf y;
  let nested := ((if choicep nx then 1 else 0) + (if choicep ny then 1 else 0))%nat in
  let d := if (nested =? 0)%nat
           then match cons_compare (toval nx) (toval ny) with Gt => [ny; nx] | _ => [nx; ny] end
           else [nx; ny] in
  Some {| data := d; cap := 64; nested := nested;
          psize := choice_size nx + choice_size ny;
          muddled := negb (nested =? 0)%nat;
          patomic := atomic_simple nx && atomic_simple ny;
          pnorm := None |}.

(** __kno_prechoice_add, choices.h:303-342.  The pointer test before the comparison
    is dropped (a value compares equal to itself).  Doubling a capacity of 0 leaves
    no room: the write is out of bounds. *)
Definition prechoice_add (cf : config) (p : pre) (v : lv) : option pre :=
  do nv <- simplify cf v;
  if is_empty nv then Some p
  else
    let comparison := match rev (data p) with
                      | [] => Gt
                      | lastv :: _ => cons_compare (toval lastv) (toval nv)
                      end in
    if is_eq comparison then Some p
    else
      let cap' := if (cap p <=? length (data p))%nat then (cap p * 2)%nat else cap p in
      if (cap' <=? length (data p))%nat then None
      else
        let ch := choicep nv in
        Some {| data := data p ++ [nv]; cap := cap';
                nested := if ch then S (nested p) else nested p;
                psize := if ch then psize p + choice_size nv else S (psize p);
                muddled := muddled p || ch || match comparison with Gt => true | _ => false end;
                patomic := patomic p && (if ch then atomic_simple nv else negb (consp nv));
                pnorm := None |}.

(** LISP_EQUAL(current,new) for a simple [current], cons.c:231-243. *)
Definition equal_to (cf : config) (current : simple) (new : lv) : option bool :=
  match new with
  | Simple s => Some (lequal (toval current) (toval s))
  | Pre p =>
    if negb (consp current) then Some false
    else do s <- simplify cf new; Some (lequal (toval current) (toval s))
  end.

(** __kno_add_to_choice, choices.h:343-366.  [shared]: the reference count of [new]
    is above 1. *)
Definition add_to_choice (cf : config) (shared : bool) (current new : lv) : option lv :=
  let skip := match new with
              | Simple (SVal v) => emptyp v || voidp v
              | _ => false
              end in
  if skip then Some current
  else
    match current with
    | Pre p => do p' <- prechoice_add cf p new; Some (Pre p')
    | Simple s =>
      if is_empty s then
        match new with
        | Pre p => if shared then do n <- simplify cf new; Some (Simple n) else Some new
        | Simple _ => Some new
        end
      else
        do e <- equal_to cf s new;
        if (e : bool) then Some current
        else do p <- make_prechoice cf current new; Some (Pre p)
    end.

(** ** Set operations *)

(** kno_union, choices.c:1102-1114 (each argument is shared with the caller). *)
Fixpoint union_loop (cf : config) (result : lv) (v : list lv) : option lv :=
  match v with
  | [] => Some result
  | x :: v' => do r <- add_to_choice cf true result x; union_loop cf r v'
  end.
Definition kno_union (cf : config) (v : list lv) : option simple :=
  match v with
  | [] => Some (SVal KEMPTY)
  | _ => do r <- union_loop cf (Simple (SVal KEMPTY)) v; simplify cf r
  end.

(** kno_choice_containsp, choices.c:234-252. *)
Definition kno_choice_containsp (cf : config) (key : val) (x : lv) : option bool :=
  match x with
  | Simple (SChoice _ l) => choice_containsp key l
  | Pre p =>
    do s <- simplify cf x;
    match s with
    | SChoice _ l => choice_containsp key l
    | SVal v => Some (lequal key v)
    end
  | Simple (SVal v) => Some (lequal v key)
  end.

(** kno_intersect_choices, choices.c:936-968.  qsort(3) by size; [None] when there is
    no choice at all (choices[0] is read). *)
Fixpoint insert_by_size (c : list val) (l : list (list val)) : list (list val) :=
  match l with
  | [] => [c]
  | d :: l' => if (length c <=? length d)%nat then c :: l else d :: insert_by_size c l'
  end.
Definition sort_by_size (l : list (list val)) : list (list val) := fold_right insert_by_size [] l.
Fixpoint in_all (item : val) (l : list (list val)) : option bool :=
  match l with
  | [] => Some true
  | c :: l' => do b <- choice_containsp item c; if (b : bool) then in_all item l' else Some false
  end.
Fixpoint filter_in (l : list val) (others : list (list val)) : option (list val) :=
  match l with
  | [] => Some []
  | x :: l' =>
    do b <- in_all x others; do r <- filter_in l' others;
    Some (if (b : bool) then x :: r else r)
  end.
Definition intersect_choices (cf : config) (l : list (list val)) : option simple :=
  match sort_by_size l with
  | [] => None
  | c :: others =>
    do r <- filter_in c others;
    match r with
    | [] => Some (SVal KEMPTY)
    | [x] => Some (SVal x)
    | _ => init_choice cf r {| f_sort := false; f_compress := false; f_realloc := false;
                               f_atomic := forallb atomicp r; f_conses := false |}
    end
  end.

(** kno_intersection, choices.c:977-1093.  First scan (995-1017): [None] inside the
    outer option means EMPTY is returned; otherwise the singleton found and whether
    there are prechoices. *)
Fixpoint isect_scan (v : list lv) (result : option val) (prechoices : bool)
  : option (option val * bool) :=
  match v with
  | [] => Some (result, prechoices)
  | x :: v' =>
    match x with
    | Simple (SVal e) =>
      if emptyp e then None
      else match result with
           | None => isect_scan v' (Some e) prechoices
           | Some r => if lequal r e then isect_scan v' result prechoices else None
           end
    | Simple (SChoice _ _) => isect_scan v' result prechoices
    | Pre _ => isect_scan v' result true
    end
  end.
(** Membership of the singleton in all arguments (1018-1036). *)
Fixpoint isect_single (cf : config) (r : val) (v : list lv) : option bool :=
  match v with
  | [] => Some true
  | Simple (SVal _) :: v' => isect_single cf r v'
  | Simple (SChoice a l) :: v' =>
    do b <- choice_containsp r l; if (b : bool) then isect_single cf r v' else Some false
  | Pre p :: v' =>
    do s <- simplify cf (Pre p);
    do b <- kno_choice_containsp cf r (Simple s);
    if (b : bool) then isect_single cf r v' else Some false
  end.
(** The conversion loop (1051-1071): collects choices; [SVal KEMPTY] is EMPTY,
    [None] is VOID in [result].  Line 1067 increments [i] a second time. *)
Fixpoint isect_convert (cf : config) (v : list lv) (choices : list (list val)) (result : option val)
         (skip : bool) : option (list (list val) * option val) :=
  match v with
  | [] => Some (choices, result)
  | x :: v' =>
    if skip then isect_convert cf v' choices result false
    else
      match x with
      | Simple (SChoice _ l) => isect_convert cf v' (choices ++ [l]) result false
      | Simple (SVal _) => isect_convert cf v' choices result false
      | Pre p =>
        do nc <- simplify cf x;
        match nc with
        | SChoice _ l => isect_convert cf v' (choices ++ [l]) result false
        | SVal e =>
          if emptyp e then Some (choices, result)
          else match result with
               | None => isect_convert cf v' choices (Some e) false
               | Some r => if lequal r e then isect_convert cf v' choices result true
                           else Some (choices, Some KEMPTY)
               end
        end
      end
  end.
Definition lv_choice (x : lv) : list (list val) :=
  match x with Simple (SChoice _ l) => [l] | _ => [] end.
Definition kno_intersection (cf : config) (v : list lv) : option lv :=
  match v with
  | [] => Some (Simple (SVal KEMPTY))
  | [x] => Some x
  | _ =>
    match isect_scan v None false with
    | None => Some (Simple (SVal KEMPTY))
    | Some (Some r, _) =>
      do b <- isect_single cf r v;
      Some (Simple (SVal (if (b : bool) then r else KEMPTY)))
    | Some (None, true) =>
      do (choices, result) <- isect_convert cf v [] None false;
      match result with
      | None => do s <- intersect_choices cf choices; Some (Simple s)
      | Some r =>
        if emptyp r then Some (Simple (SVal KEMPTY))
        else do b <- in_all r choices; Some (Simple (SVal (if (b : bool) then r else KEMPTY)))
      end
    | Some (None, false) =>
      do s <- intersect_choices cf (flat_map lv_choice v); Some (Simple s)
    end
  end.

(** compute_choice_difference, choices.c:1116-1183.

    The search for the next element of the part that may match (1144-1161) on the
    sorted rest [part] (pscan..plim), indices relative to pscan.  When [top] becomes
    [bottom-1] the size_t window wraps and [middle] is [bottom-1] (on a flat 64-bit
    address space). *)
Fixpoint gallop (fuel : nat) (nextval : val) (part : list val) (bottom top : Z) : option Z :=
  let middle := if (top <? bottom)%Z then (bottom - 1)%Z else (bottom + Z.quot (top - bottom) 2)%Z in
  if (bottom <? top)%Z then
    match fuel with
    | O => None
    | S f =>
      do midval <- zget part middle;
      do c <- wcmp nextval midval;
      match c with
      | Eq => Some middle
      | Lt => gallop f nextval part bottom (middle - 1)
      | Gt => gallop f nextval part (middle + 1) top
      end
    end
  else Some middle.
(** Both atomic, 1127-1161; the result is what is written followed by the rest of
    [whole]. *)
Fixpoint adiff (fuel : nat) (whole part : list val) : option (list val) :=
  match whole, part with
  | [], _ => Some []
  | _, [] => Some whole
  | w :: whole', p :: part' =>
    match fuel with
    | O => None
    | S f =>
      do c <- wcmp w p;
      match c with
      | Eq => adiff f whole' part'
      | Lt => do r <- adiff f whole' part; Some (w :: r)
      | Gt =>
        match part' with
        | [] => Some whole
        | p' :: _ =>
          do c' <- wcmp w p';
          match c' with
          | Gt =>
            do m <- gallop (S (length part')) w part' 0 (Z.of_nat (length part') - 1);
            adiff f whole (if (0 <? m)%Z then skipn (Z.to_nat m) part' else part')
          | _ => adiff f whole part'
          end
        end
      end
    end
  end.
(** Otherwise, 1162-1171. *)
Fixpoint cdiff (fuel : nat) (whole part : list val) : option (list val) :=
  match whole, part with
  | [], _ => Some []
  | _, [] => Some whole
  | w :: whole', p :: part' =>
    match fuel with
    | O => None
    | S f =>
      if lequal w p then cdiff f whole' part'
      else match cons_compare w p with
           | Lt => do r <- cdiff f whole' part; Some (w :: r)
           | _ => cdiff f whole part'
           end
    end
  end.
Definition choice_difference (cf : config) (wa : bool) (whole : list val) (pa : bool) (part : list val)
  : option simple :=
  let fuel := S (length whole + length part) in
  do r <- (if wa && pa then adiff fuel whole part else cdiff fuel whole part);
  match r with
  | [] => Some (SVal KEMPTY)
  | [x] => Some (SVal x)
  | _ => init_choice cf r {| f_sort := false; f_compress := false; f_realloc := false;
                             f_atomic := wa; f_conses := false |}
  end.

(** kno_difference, choices.c:1189-1247.  The two shortcuts on equal pointers
    (value == remove; an accumulator with the single entry [remove]) are modelled for
    atoms only: for heap objects they return what the general path returns.

    In the case of removing one element from a choice of at least three (1224-1236)
    the new choice is declared to have size-1 elements whatever was written: the rest
    of the vector would be uninitialised, [None]. *)
Definition simple_difference (cf : config) (value remove : simple) : option simple :=
  if is_empty value then Some value
  else if is_empty remove then Some value
  else
    match value, remove with
    | SChoice a l, SVal r =>
      do b <- choice_containsp r l;
      if (b : bool) then
        match l with
        | [_] => Some (SVal KEMPTY)
        | [x; y] => Some (SVal (if lequal r x then y else x))
        | _ =>
          let kept := filter (fun x => negb (lequal x r)) l in
          if (length kept =? length l - 1)%nat
          then init_choice cf kept {| f_sort := false; f_compress := false; f_realloc := true;
                                      f_atomic := a; f_conses := false |}
          else None
        end
      else Some value
    | SChoice wa whole, SChoice pa part => choice_difference cf wa whole pa part
    | SVal v, SChoice _ l =>
      do b <- choice_containsp v l; Some (if (b : bool) then SVal KEMPTY else value)
    | SVal v, SVal r => Some (if lequal v r then SVal KEMPTY else value)
    end.
Definition kno_difference (cf : config) (value remove : lv) : option lv :=
  match value, remove with
  | Simple v, Simple r => do s <- simple_difference cf v r; Some (Simple s)
  | _, _ =>
    if (match value with Simple s => is_empty s | Pre _ => false end) then Some value
    else if (match remove with Simple s => is_empty s | Pre _ => false end) then Some value
    else
      do v <- simplify cf value; do r <- simplify cf remove;
      do s <- simple_difference cf v r; Some (Simple s)
  end.

(** kno_overlapp, choices.c:1258-1293. *)
Fixpoint any_in (l : list val) (c : list val) : option bool :=
  match l with
  | [] => Some false
  | x :: l' => do b <- choice_containsp x c; if (b : bool) then Some true else any_in l' c
  end.
Definition kno_overlapp (cf : config) (xarg yarg : lv) : option bool :=
  if (match xarg with Simple s => is_empty s | _ => false end) then Some false
  else if (match yarg with Simple s => is_empty s | _ => false end) then Some false
  else
    do x <- simplify cf xarg; do y <- simplify cf yarg;
    match x, y with
    | SChoice _ l, SChoice _ m =>
      if (length m <? length l)%nat then any_in m l else any_in l m
    | SChoice _ l, SVal v => choice_containsp v l
    | SVal v, SChoice _ m => choice_containsp v m
    | SVal v, SVal w => Some (lequal v w)
    end.

(** kno_containsp, choices.c:1301-1333. *)
Fixpoint every_in (l : list val) (c : list val) : option bool :=
  match l with
  | [] => Some true
  | x :: l' => do b <- choice_containsp x c; if (b : bool) then every_in l' c else Some false
  end.
Definition kno_containsp (cf : config) (xarg yarg : lv) : option bool :=
  if (match xarg with Simple s => is_empty s | _ => false end) then Some false
  else if (match yarg with Simple s => is_empty s | _ => false end) then Some false
  else
    do x <- simplify cf xarg; do y <- simplify cf yarg;
    match x, y with
    | SChoice _ l, SChoice _ m => every_in l m
    | SChoice _ _, SVal _ => Some false
    | SVal v, SChoice _ m => choice_containsp v m
    | SVal v, SVal w => Some (lequal v w)
    end.

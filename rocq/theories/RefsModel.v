(** * Reference counts.

    Source: /repo/include/kno/cons.h:265-311 (the lock-free version, the default),
    /repo/include/kno/ptr.h:328-336, /repo/src/lisp/recycle.c:34-100, 191-240.

    First part: one object, any number of threads; every atomic operation of the C code
    (load, fetch_add, fetch_sub, store) is one step (sequentially consistent, as C's
    default memory order gives).  Second part: a heap of objects, one thread: decref with
    recursive recycling. *)
From Verif Require Import BytesModel.
Local Open Scope N_scope.

(** kno_consbits: unsigned long and KNO_MAX_REFCOUNT 0xFFFFFFFFFFF80 by default, unsigned int and
    0xFFFFFF80 with KNO_INT_REFCOUNT (ptr.h:328-336).  The low 7 bits are the type. *)
Record hdr := { modulus : N; max_refcount : N }.
Definition long_hdr : hdr := {| modulus := 2^64; max_refcount := 0xFFFFFFFFFFF80 |}.
Definition int_hdr : hdr := {| modulus := 2^32; max_refcount := 0xFFFFFF80 |}.

(** Where a thread is: outside; in _kno_incref after the load; in _kno_decref after the load,
    after a fetch_sub that took away the last reference, after the store; or it has
    raised an exception. *)
Inductive pc := Idle | IncLoaded (cb : N) | DecLoaded (cb : N) | DecZero (old : N) | DecStored | Raised.
(** The references a thread owns; references kept in some data structure. *)
Record shared := {
  head : N;
  freed : N;            (* how often kno_recycle_cons was called *)
  touched : bool;       (* the header was used after that *)
  floating : N;
  threads : list (N * pc) }.

Inductive action := IncLoad | IncGo | DecLoad | DecGo | DecStore | DecRecycle | Give | Take.
Fixpoint upd (l : list (N * pc)) (i : nat) (x : N * pc) : list (N * pc) :=
  match l, i with
  | [], _ => []
  | _ :: r, O => x :: r
  | y :: r, S i' => y :: upd r i' x
  end.
(** One step of thread [i].  A thread calls kno_incref or kno_decref only on a reference it
    owns; decref gives it up. *)
Definition exec (h : hdr) (s : shared) (i : nat) (a : action) : option shared :=
  match nth_error (threads s) i with
  | None => None
  | Some (own, p) =>
    let go hd own' p' := Some {| head := hd; freed := freed s; touched := touched s || (0 <? freed s); floating := floating s;
                                 threads := upd (threads s) i (own', p') |} in
    match a, p with
    | IncLoad, Idle => if 0 <? own then go (head s) own (IncLoaded (head s)) else None
    | IncGo, IncLoaded cb =>                                    (* cons.h:272-286 *)
      if max_refcount h <? cb then go (head s) own Raised
      else if cb <? 0x80 then go (head s) (own + 1) Idle
      else go ((head s + 0x80) mod modulus h) (own + 1) Idle
    | DecLoad, Idle => if 0 <? own then go (head s) (own - 1) (DecLoaded (head s)) else None
    | DecGo, DecLoaded cb =>                                    (* cons.h:293-303 *)
      if max_refcount h <? cb then go (head s) own Raised
      else if cb <? 0x80 then go (head s) own Idle
      else go ((head s + (modulus h - 0x80)) mod modulus h) own
              (if (0x80 <=? head s) && (head s <? 0x100) then DecZero (head s) else Idle)
    | DecStore, DecZero old => go (N.lor (N.land old 0x7F) (max_refcount h)) own DecStored
    | DecRecycle, DecStored =>
      Some {| head := head s; freed := freed s + 1; touched := touched s; floating := floating s; threads := upd (threads s) i (own, Idle) |}
    | Give, Idle => if 0 <? own then
        Some {| head := head s; freed := freed s; touched := touched s; floating := floating s + 1; threads := upd (threads s) i (own - 1, Idle) |}
      else None
    | Take, Idle => if 0 <? floating s then
        Some {| head := head s; freed := freed s; touched := touched s; floating := floating s - 1; threads := upd (threads s) i (own + 1, Idle) |}
      else None
    | _, _ => None
    end
  end.

(** ** Heaps *)
(** Objects by number.  Everything that is not a pair recycles like a vector: the
    elements are released in order, then the memory (recycle_vector, recycle_choice,
    recycle_compound, recycle_pair).  None as an element: an immediate value. *)
Inductive status := Live | Dying | Freed.
Record obj := { count : N; stat : status; is_pair : bool; elts : list (option nat) }.
Definition heap := list obj.
Fixpoint hset (m : heap) (i : nat) (o : obj) : heap :=
  match m, i with
  | [], _ => []
  | _ :: r, O => o :: r
  | y :: r, S i' => y :: hset r i' o
  end.
Definition set_stat (o : obj) (s : status) : obj := {| count := count o; stat := s; is_pair := is_pair o; elts := elts o |}.
Definition set_count (o : obj) (c : N) : obj := {| count := c; stat := stat o; is_pair := is_pair o; elts := elts o |}.
Notation "'run' x <- e ; k" := (match e with Some x => k | None => None end) (at level 200, x pattern, e at level 100, k at level 200).
(** u8_free: freeing twice is an error (None). *)
Definition release (m : heap) (i : nat) : option heap :=
  match nth_error m i with
  | Some o => match stat o with Dying => Some (hset m i (set_stat o Freed)) | _ => None end
  | None => None
  end.
(** PAIRP(x). *)
Definition pairp (m : heap) (x : option nat) : option bool :=
  match x with
  | None => Some false
  | Some i => match nth_error m i with
              | Some o => match stat o with Freed => None | _ => Some (is_pair o) end
              | None => None
              end
  end.
(** _kno_decref, cons.h:289-311; kno_recycle_cons, recycle.c:191-240; recycle_vector, 28-43;
    recycle_list, 72-100 ([cdr_loop] is the loop at 84-100).  Using a header after it has been freed
    or while it is being recycled is an error (None).  [fuel] bounds the depth of the recursion. *)
Fixpoint decref (fuel : nat) (m : heap) (x : option nat) : option heap :=
  match fuel with
  | O => None
  | S fuel' =>
    match x with
    | None => Some m
    | Some i =>
      match nth_error m i with
      | None => None
      | Some o =>
        match stat o with
        | Live =>
          if count o =? 0 then Some m
          else if 1 <? count o then Some (hset m i (set_count o (count o - 1)))
          else
            let m1 := hset m i (set_stat (set_count o 0) Dying) in
            if is_pair o then
              match elts o with
              | [car; cdr] =>
                run m2 <- decref fuel' m1 car;
                run p <- pairp m2 cdr;
                if (p : bool) then run m3 <- release m2 i; cdr_loop fuel' m3 cdr
                else run m3 <- decref fuel' m2 cdr; release m3 i
              | _ => None
              end
            else run m2 <- decref_all fuel' m1 (elts o); release m2 i
        | _ => None
        end
      end
    end
  end
with cdr_loop (fuel : nat) (m : heap) (x : option nat) : option heap :=
  match fuel with
  | O => None
  | S fuel' =>
    match x with
    | None => None
    | Some i =>
      match nth_error m i with
      | None => None
      | Some o =>
        match stat o with
        | Live =>
          if count o =? 0 then Some m                                   (* KNO_STATIC_CONSP *)
          else match elts o with
          | [car; cdr] =>
            if 1 <? count o then Some (hset m i (set_count o (count o - 1)))
            else
              let m1 := hset m i (set_stat (set_count o 0) Dying) in
              run m2 <- decref fuel' m1 car;
              run p <- pairp m2 cdr;
              if (p : bool) then run m3 <- release m2 i; cdr_loop fuel' m3 cdr
              else run m3 <- decref fuel' m2 cdr; release m3 i
          | _ => None
          end
        | _ => None
        end
      end
    end
  end
with decref_all (fuel : nat) (m : heap) (l : list (option nat)) : option heap :=
  match fuel with
  | O => None
  | S fuel' =>
    match l with
    | [] => Some m
    | x :: r => run m1 <- decref fuel' m x; decref_all fuel' m1 r
    end
  end.

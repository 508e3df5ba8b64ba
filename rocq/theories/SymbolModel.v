(** The symbol table: interning names (src/lisp/symbols.c). *)

From Coq Require Import List Arith NArith Bool.
Import ListNotations.
From Verif Require Import HashtableModel.
Local Open Scope N_scope.

(** A text in memory is the list of its bytes; a zero byte follows it. *)

(** What strlen, strdup and printing see of it: the bytes before the first
    zero. *)
Fixpoint cstr (l : list N) : list N :=
  match l with
  | [] => []
  | c :: l' => if c =? 0 then [] else c :: cstr l'
  end.

(** strncmp(a,b,n)==0. *)
Fixpoint strneq (a b : list N) (n : nat) : bool :=
  match n with
  | O => true
  | S n' =>
    let x := hd 0 a in
    let y := hd 0 b in
    if x =? y then if x =? 0 then true else strneq (tl a) (tl b) n' else false
  end.

(** mult_hash_bytes, symbols.c:59-76: words of four bytes in the byte order of
    a little-endian machine, arithmetic on 32 bits, MYSTERIOUS_MODULUS. *)
Definition hash_step (h w : N) : N := ((127 * h + w) mod 2 ^ 32) mod 256001281.
Fixpoint mult_hash (l : list N) (h : N) : N :=
  match l with
  | a :: b :: c :: d :: t => mult_hash t (hash_step h (a + 256 * b + 65536 * c + 16777216 * d))
  | [] => hash_step h 1
  | [a] => hash_step h a
  | [a; b] => hash_step h (a + 256 * b)
  | [a; b; c] => hash_step h (a + 256 * b + 65536 * c)
  end.
Definition hash_bytes (l : list N) : N := mult_hash l 0.

(** struct KNO_SYMBOL_ENTRY and struct KNO_SYMBOL_TABLE (lisp.h, symbols.c:20-22).
    [names]: kno_symbol_names, the entry of each symid: the bytes allocated for
    its name (a zero follows them) and str_bytelen.  [slots]: the hash table,
    holding symids.  [maxs]: kno_max_symbols; kno_n_symbols is the length of
    [names]. *)
Record symtab := MkT { names : list (list N * nat); slots : list (option nat); maxs : N }.

(** init_symbol_tables, symbols.c:80-102, with kno_initial_symbols [m]; the
    builtin symbols it then interns are the first of the history. *)
Definition init_symbols (m : N) : option symtab :=
  match get_hashtable_size (2 * m) with
  | Some n => Some (MkT [] (repeat None (N.to_nat n)) m)
  | None => None
  end.

Definition next (size i : nat) : nat := if (size <=? S i)%nat then O else S i.

(** The loops of probe_symbol (symbols.c:259-268) and kno_make_symbol
    (288-296): the slot where the name is or an empty one.  None is a loop that
    never ends. *)
Fixpoint probe (fuel : nat) (ns : list (list N * nat)) (sl : list (option nat)) (i : nat)
  (mem : list N) (len : nat) : option nat :=
  match fuel with
  | O => None
  | S f =>
    match nth_error sl i with
    | None => None
    | Some None => Some i
    | Some (Some id) =>
      match nth_error ns id with
      | None => None
      | Some (p, n) =>
        if (len =? n)%nat && strneq mem p len then Some i
        else probe f ns sl (next (length sl) i) mem len
      end
    end
  end.

(** The first [n] bytes at the copy of a name [p]: reading beyond the zero that
    ends it is None. *)
Definition stored (e : list N * nat) : option (list N) :=
  let '(p, n) := e in
  if (n <=? length p)%nat then Some (firstn n p)
  else if (n =? S (length p))%nat then Some (p ++ [0])
  else None.

Definition set_slot (sl : list (option nat)) (i : nat) (id : nat) : list (option nat) :=
  firstn i sl ++ Some id :: skipn (S i) sl.

Definition home (h : N) (size : nat) : nat := N.to_nat (h mod N.of_nat size).

(** grow_symbol_tables, symbols.c:234-238: the first free slot. *)
Fixpoint place (fuel : nat) (sl : list (option nat)) (i : nat) : option nat :=
  match fuel with
  | O => None
  | S f =>
    match nth_error sl i with
    | None => None
    | Some None => Some i
    | Some (Some _) => place f sl ((S i) mod length sl)
    end
  end.

(** grow_symbol_tables, symbols.c:226-240: moving the entries, in the order of
    the old table. *)
Fixpoint rehash (ns : list (list N * nat)) (old new : list (option nat)) : option (list (option nat)) :=
  match old with
  | [] => Some new
  | None :: old' => rehash ns old' new
  | Some id :: old' =>
    match nth_error ns id with
    | None => None
    | Some e =>
      match stored e with
      | None => None
      | Some b =>
        match place (length new) new (home (hash_bytes b) (length new)) with
        | None => None
        | Some i => rehash ns old' (set_slot new i id)
        end
      end
    end
  end.

(** grow_symbol_tables, symbols.c:217-251. *)
Definition grow (t : symtab) : option symtab :=
  let m := 2 * t.(maxs) in
  match get_hashtable_size (2 * m) with
  | None => None
  | Some n =>
    match rehash t.(names) t.(slots) (repeat None (N.to_nat n)) with
    | None => None
    | Some sl => Some (MkT t.(names) sl m)
    end
  end.

(** kno_make_symbol, symbols.c:273-318, for one thread: the probe without the
    lock (277-279) and the one with it (282-300) see the same table.  [mem] is
    the text the first argument points to, [len] the second argument, not
    negative and at most the length of [mem].  [fuel] counts the calls: the
    call after growing (304) is the only recursive one. *)
Fixpoint make_symbol (fuel : nat) (t : symtab) (mem : list N) (len : nat) : option (symtab * nat) :=
  match fuel with
  | O => None
  | S f =>
    let sl := t.(slots) in
    match probe (length sl) t.(names) sl (home (hash_bytes (firstn len mem)) (length sl)) mem len with
    | None => None
    | Some i =>
      match nth_error sl i with
      | Some (Some id) => Some (t, id)
      | _ =>
        if t.(maxs) <=? N.of_nat (length t.(names))
        then match grow t with
             | None => None
             | Some t' => make_symbol f t' mem len
             end
        else
          let id := length t.(names) in
          Some (MkT (t.(names) ++ [(cstr mem, len)]) (set_slot sl i id) t.(maxs), id)
      end
    end
  end.

(** kno_make_symbol. *)
Definition intern (t : symtab) (mem : list N) (len : nat) := make_symbol 2 t mem len.

(** kno_probe_symbol and probe_symbol, symbols.c:253-271, 320-327: None is a
    loop that never ends, Some None is VOID. *)
Definition probe_symbol (t : symtab) (mem : list N) (len : nat) : option (option nat) :=
  match t.(names) with
  | [] => Some None
  | _ =>
    let sl := t.(slots) in
    match probe (length sl) t.(names) sl (home (hash_bytes (firstn len mem)) (length sl)) mem len with
    | None => None
    | Some i => match nth_error sl i with Some o => Some o | None => None end
    end
  end.

(** KNO_SYMBOL_NAME, ptr.h:987-990: the C string of a symbol; None is not a
    symbol. *)
Definition symbol_name (t : symtab) (id : nat) : option (list N) := option_map fst (nth_error t.(names) id).

(** Histories. *)
Inductive symop := Intern (mem : list N) (len : nat) | Look (mem : list N) (len : nat).
Inductive symout := Sym (id : nat) | NoSym.

Definition symstep (t : symtab) (o : symop) : option (symtab * symout) :=
  match o with
  | Intern mem len => match intern t mem len with Some (t', id) => Some (t', Sym id) | None => None end
  | Look mem len =>
    match probe_symbol t mem len with
    | Some (Some id) => Some (t, Sym id)
    | Some None => Some (t, NoSym)
    | None => None
    end
  end.

Fixpoint symrun (t : symtab) (l : list symop) : option (symtab * list symout) :=
  match l with
  | [] => Some (t, [])
  | o :: l' =>
    match symstep t o with
    | None => None
    | Some (t1, r) =>
      match symrun t1 l' with
      | None => None
      | Some (t2, rs) => Some (t2, r :: rs)
      end
    end
  end.

(** * What sequences are, for the theorems about them (not a model of code). *)
From Verif Require Import SeqModel.
Local Open Scope Z_scope.

Inductive kind := KList | KVec | KComp | KStr | KPacket | KInts (w : width) | KFlos (dbl : bool).

(** A list that ends in the empty list, and its elements. *)
Inductive proper : lv -> list lv -> Prop :=
| proper_nil : proper LNil []
| proper_pair a d l : proper d l -> proper (LPair a d) (a :: l).

(** The value a number in a numeric vector has: a fixnum up to 2^61-1. *)
Definition int_value (z : Z) (v : lv) : Prop :=
  (Z.abs z < 2 ^ 61 /\ v = LFix z) \/ (2 ^ 61 <= Z.abs z /\ v = LBig z).
Definition fits (w : width) (z : Z) : Prop :=
  match w with
  | WShort => - 2 ^ 15 <= z < 2 ^ 15
  | WInt => - 2 ^ 31 <= z < 2 ^ 31
  | WLong => - 2 ^ 63 <= z < 2 ^ 63
  end.

(** [is_seq k x l]: the value [x] is a sequence of kind [k] with elements [l].  A string's
    elements are characters other than NUL, a packet's are the numbers 0..255. *)
Inductive is_seq : kind -> lv -> list lv -> Prop :=
| is_list x l : proper x l -> is_seq KList x l
| is_vec l : is_seq KVec (LVec l) l
| is_comp tag pre l : is_seq KComp (LComp tag (Some (length pre)) (pre ++ l)) l
| is_str s : Forall (fun c => c <> 0%N) s -> is_seq KStr (LStr s) (map LChar s)
| is_packet bs : Forall (fun b => (b < 256)%N) bs ->
    is_seq KPacket (LPacket false bs) (map (fun b => LFix (Z.of_N b)) bs)
| is_ints w zs l : Forall (fits w) zs -> Forall2 int_value zs l -> is_seq (KInts w) (LNumvec w zs) l
| is_flos d fs : is_seq (KFlos d) (LFlovec d fs) (map LFlo fs).

(** Place [i] of [l] holds an element with [P]. *)
Definition holds (P : lv -> Prop) (l : list lv) (i : Z) : Prop :=
  0 <= i /\ exists e, nth_error l (Z.to_nat i) = Some e /\ P e.
Definition first_in (P : lv -> Prop) l s e i : Prop :=
  s <= i < e /\ holds P l i /\ forall j, s <= j < i -> ~ holds P l j.
Definition last_in (P : lv -> Prop) l s e i : Prop :=
  s <= i < e /\ holds P l i /\ forall j, i < j < e -> ~ holds P l j.
Definition none_in (P : lv -> Prop) l s e : Prop := forall j, s <= j < e -> ~ holds P l j.

(** When an element counts as the one looked for: in vectors and compounds an element
    equal to the key, or a choice that has elements in common with it; in lists an equal
    element; in numeric vectors an equal number; in strings and packets the same
    character or byte. *)
Definition number (x : lv) : Prop := match x with LFix _ | LBig _ | LFlo _ => True | _ => False end.
Definition matches (eqv ovl : lv -> lv -> bool) (k : kind) (key e : lv) : Prop :=
  match k with
  | KVec | KComp => eqv key e = true \/ ((exists l, e = LChoice l) /\ ovl key e = true)
  | KList => eqv e key = true
  | KInts _ | KFlos _ => number key /\ eqv e key = true
  | KStr | KPacket => e = key
  end.

(** As [matches], but without the rule for choices. *)
Definition equals (eqv ovl : lv -> lv -> bool) (k : kind) (key e : lv) : Prop :=
  match k with
  | KVec | KComp => eqv key e = true
  | _ => matches eqv ovl k key e
  end.

(** The subsequence [k] at place [i] of [l], elements related by [R]. *)
Definition sub_at (R : lv -> lv -> Prop) (k l : list lv) (i : Z) : Prop :=
  0 <= i /\ exists pre mid post, l = pre ++ mid ++ post /\ Z.of_nat (length pre) = i /\ Forall2 R k mid.
(** The first place of [k] that lies in whole between [s] and [e]. *)
Definition first_sub R (k l : list lv) s e i : Prop :=
  s <= i /\ i + Z.of_nat (length k) <= e /\ sub_at R k l i /\
  forall j, s <= j < i -> ~ sub_at R k l j.
Definition no_sub R (k l : list lv) s e : Prop :=
  forall j, s <= j -> j + Z.of_nat (length k) <= e -> ~ sub_at R k l j.

(** Arguments of the primitives: a start from 0 on, an end counted from the end if it is
    negative. *)
Definition start_is (a : parg) (s : Z) : Prop := (a = ANone /\ s = 0) \/ (a = AFix s /\ 0 <= s < 2 ^ 31).
Definition end_is (b : parg) (len e : Z) : Prop :=
  (b = ANone /\ e = len) \/ (b = AFix e /\ 0 <= e <= len) \/
  (exists z, b = AFix z /\ - len <= z < 0 /\ e = len + z).
Definition slice_of (l : list lv) (s e : Z) : list lv :=
  firstn (Z.to_nat (e - s)) (skipn (Z.to_nat s) l).

(** The kind of a new sequence with the elements of one of kind [k]: there are no new
    compounds or numeric vectors. *)
Definition made (k : kind) : kind := match k with KComp | KInts _ | KFlos _ => KVec | _ => k end.

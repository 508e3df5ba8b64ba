(** Properties of the symbol table (C118, C119). *)

From Coq Require Import List Arith NArith Bool Lia.
Import ListNotations.
From Verif Require Import HashtableModel SymbolModel SymbolProofs.

(** A history of interning and looking up whole texts without zero bytes, on a
    table just made for [m] symbols. *)
Definition reached (m : N) (l : list symop) (t : symtab) (rs : list symout) : Prop :=
  exists t0, init_symbols m = Some t0 /\ symrun t0 l = Some (t, rs).

Lemma reach_spec : forall m l, (0 < m)%N -> (2 * m < 1610612741)%N ->
  Forall whole l -> (4 * N.of_nat (length l) < 1610612741)%N ->
  exists t, reached m l t (snd (srun [] l)) /\ Inv (fst (srun [] l)) t.
Proof.
  intros m l Hm B W L. destruct (init_ok m Hm B) as (t0 & A & I & M).
  destruct (symrun_ok l [] t0 I W) as (t & C & D).
  - rewrite M. exact Hm.
  - exact L.
  - exists t. split; auto. exists t0. auto.
Qed.

Lemma reached_det : forall m l t rs t' rs', reached m l t rs -> reached m l t' rs' -> t = t' /\ rs = rs'.
Proof.
  intros m l t rs t' rs' (a & A & B) (b & C & D). rewrite A in C. injection C as <-.
  rewrite B in D. injection D as <- <-. auto.
Qed.

(** Every history of up to four hundred million calls comes to an end: no probe
    runs for ever, however often the table grows. *)
Theorem C118_total : forall m l,
  (0 < m)%N -> (2 * m < 1610612741)%N -> (4 * N.of_nat (length l) < 1610612741)%N ->
  Forall whole l -> exists t rs, reached m l t rs.
Proof.
  intros m l Hm B L W. destruct (reach_spec m l Hm B W L) as (t & A & _). eauto.
Qed.

Print Assumptions C118_total.

(** Two calls of intern give the same symbol exactly when they were given the
    same name. *)
Theorem C118_same : forall m l t rs i j a b k k',
  (0 < m)%N -> (2 * m < 1610612741)%N -> (4 * N.of_nat (length l) < 1610612741)%N ->
  Forall whole l -> reached m l t rs ->
  nth_error l i = Some (Intern a k) -> nth_error l j = Some (Intern b k') ->
  (nth_error rs i = nth_error rs j <-> a = b).
Proof.
  intros m l t rs i j a b k k' Hm B L W Rr Hi Hj. destruct (reach_spec m l Hm B W L) as (t' & A & I).
  destruct (reached_det _ _ _ _ _ _ Rr A) as [-> ->].
  destruct (srun_interned l [] i a k Hi) as (x & X1 & X2).
  destruct (srun_interned l [] j b k' Hj) as (y & Y1 & Y2).
  rewrite X1, Y1. split.
  - intros E. injection E as ->. congruence.
  - intros ->. do 2 f_equal. apply (proj1 (NoDup_nth_error _) (i_nodup _ _ I)); [|congruence].
    apply nth_error_Some. congruence.
Qed.

Print Assumptions C118_same.

(** A symbol keeps its name: after the whole history the symbol an earlier call
    of intern answered has the name that call was given. *)
Theorem C118_name : forall m l t rs i a k,
  (0 < m)%N -> (2 * m < 1610612741)%N -> (4 * N.of_nat (length l) < 1610612741)%N ->
  Forall whole l -> reached m l t rs -> nth_error l i = Some (Intern a k) ->
  exists id, nth_error rs i = Some (Sym id) /\ symbol_name t id = Some a.
Proof.
  intros m l t rs i a k Hm B L W Rr Hi. destruct (reach_spec m l Hm B W L) as (t' & A & I).
  destruct (reached_det _ _ _ _ _ _ Rr A) as [-> ->].
  destruct (srun_interned l [] i a k Hi) as (x & X1 & X2). exists x. split; auto.
  unfold symbol_name. rewrite (i_names _ _ I), names_nth, X2. reflexivity.
Qed.

Print Assumptions C118_name.

(** Looking a name up without interning it finds the symbol intern answered, if
    the name was interned before, and nothing otherwise. *)
Theorem C118_look : forall m l t rs i a k,
  (0 < m)%N -> (2 * m < 1610612741)%N -> (4 * N.of_nat (length l) < 1610612741)%N ->
  Forall whole l -> reached m l t rs -> nth_error l i = Some (Look a k) ->
  (forall j k', nth_error l j = Some (Intern a k') -> j < i -> nth_error rs i = nth_error rs j)
  /\ ((forall j k', j < i -> nth_error l j <> Some (Intern a k')) -> nth_error rs i = Some NoSym).
Proof.
  intros m l t rs i a k Hm B L W Rr Hi. destruct (reach_spec m l Hm B W L) as (t' & A & I).
  destruct (reached_det _ _ _ _ _ _ Rr A) as [-> ->].
  destruct (srun_looked l [] i a k Hi) as [(x & X1 & X2 & X3)|(X1 & X2 & X3)].
  - split.
    + intros j k' Hj Lt. destruct (srun_interned l [] j a k' Hj) as (y & Y1 & Y2).
      rewrite X1, Y1. do 2 f_equal. apply (proj1 (NoDup_nth_error _) (i_nodup _ _ I)); [|congruence].
      apply nth_error_Some. congruence.
    + intros Q. destruct X3 as [[]|(j & k' & C & D)]. exfalso. eapply Q; eauto.
  - split; [|auto]. intros j k' Hj Lt. exfalso. eapply X3; eauto.
Qed.

Print Assumptions C118_look.

(** Symbols are numbered without gaps: those the calls of intern answered, and
    there are no others. *)
Theorem C118_numbers : forall m l t rs,
  (0 < m)%N -> (2 * m < 1610612741)%N -> (4 * N.of_nat (length l) < 1610612741)%N ->
  Forall whole l -> reached m l t rs ->
  (forall id, id < length (names t) <-> exists i a k, nth_error l i = Some (Intern a k) /\ nth_error rs i = Some (Sym id))
  /\ (N.of_nat (length (names t)) <= maxs t)%N.
Proof.
  intros m l t rs Hm B L W Rr. destruct (reach_spec m l Hm B W L) as (t' & A & I).
  destruct (reached_det _ _ _ _ _ _ Rr A) as [-> ->].
  assert (Ln : length (names t') = length (fst (srun [] l))) by (rewrite (i_names _ _ I), map_length; auto).
  rewrite Ln. split; [|apply (i_max _ _ I)].
  intros id. split.
  - intros H. destruct (nth_error (fst (srun [] l)) id) as [a|] eqn:E.
    2:{ apply nth_error_None in E. lia. }
    destruct (srun_all l [] a) as [[]|(i & k & X)]; [eapply nth_error_In; eauto|].
    exists i, a, k. split; auto. destruct (srun_interned l [] i a k X) as (y & Y1 & Y2).
    rewrite Y1. do 2 f_equal. apply (proj1 (NoDup_nth_error _) (i_nodup _ _ I)); [|congruence].
    apply nth_error_Some. congruence.
  - intros (i & a & k & X & Y). destruct (srun_interned l [] i a k X) as (y & Y1 & Y2).
    rewrite Y in Y1. injection Y1 as <-. apply nth_error_Some. congruence.
Qed.

Print Assumptions C118_numbers.

(* Four names in a table for one symbol, which grows twice. *)
Definition demo : list symop :=
  [Intern [97; 98]%N 2; Look [99]%N 1; Intern [99]%N 1; Intern [97; 98]%N 2; Intern [] 0;
   Intern [97; 98; 99; 100; 101]%N 5; Look [99]%N 1; Intern [99]%N 1].

Example C118_case :
  Forall whole demo /\
  exists t, reached 1 demo t [Sym 0; NoSym; Sym 1; Sym 0; Sym 2; Sym 3; Sym 1; Sym 1] /\
    symbol_name t 3 = Some [97; 98; 99; 100; 101]%N /\ length (names t) = 4%nat /\ maxs t = 4%N.
Proof.
  split.
  - repeat constructor; discriminate.
  - eexists. split; [eexists; split; [reflexivity|vm_compute; reflexivity]|].
    split; [reflexivity|]. split; reflexivity.
Qed.

(** ** C119: parts of texts and zero bytes *)

(** The name of a symbol made from the first two bytes of a longer text is the
    longer text, and so is the name of the symbol of that two-byte name. *)
Theorem C119_prefix_refuted : exists mem len name t,
  firstn len mem = name /\ proper mem /\
  reached 4 [Intern mem len; Intern name len] t [Sym 0; Sym 0] /\
  symbol_name t 0 = Some mem /\ mem <> name.
Proof.
  exists [97; 98; 99]%N, 2%nat, [97; 98]%N. eexists.
  split; [reflexivity|]. split; [repeat constructor; discriminate|].
  split; [eexists; split; [reflexivity|vm_compute; reflexivity]|].
  split; [reflexivity|discriminate].
Qed.

Print Assumptions C119_prefix_refuted.

(** Two names of three bytes which differ after a zero byte can be taken for the
    same. *)
Theorem C119_zero_refuted : exists a b t,
  a <> b /\ reached 4 [Intern a 3; Intern b 3] t [Sym 0; Sym 0] /\ length a = 3%nat /\ length b = 3%nat.
Proof.
  exists [65; 0; 1]%N, [65; 0; 54]%N. eexists. split; [discriminate|].
  split; [eexists; split; [reflexivity|vm_compute; reflexivity]|auto].
Qed.

Print Assumptions C119_zero_refuted.

(** With a name in the table that has a zero byte, the table cannot grow without
    reading memory that does not belong to the name. *)
Theorem C119_grow_refuted : exists a t0 t1,
  init_symbols 1 = Some t0 /\ intern t0 a (length a) = Some (t1, 0%nat) /\
  intern t1 [66]%N 1 = None /\ grow t1 = None.
Proof. exists [65; 0; 1]%N. eexists. eexists.
  split; [reflexivity|]. split; [vm_compute; reflexivity|]. split; vm_compute; reflexivity. Qed.

Print Assumptions C119_grow_refuted.

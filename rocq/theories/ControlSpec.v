(* What control forms are to do, independently of how they do it: in terms of
   the states after so many forms or so many rounds. *)

From Coq Require Import List ZArith Bool Lia.
Import ListNotations.
From Verif Require Import ControlModel.
Open Scope nat_scope.

Section Spec.

Variables form W : Type.
Variable ev : form -> binds -> W -> val * W.

(* The state after evaluating forms in order. *)
Definition after (fs : list form) (b : binds) (w : W) : W :=
  fold_left (fun w f => snd (ev f b w)) fs w.

(* The value of [f] when it is evaluated after [pre]. *)
Definition value_after (pre : list form) (f : form) (b : binds) (w : W) : val :=
  fst (ev f b (after pre b w)).

(* Evaluating [pre] in order, the value of each form is a [P]. *)
Definition all_pass (P : val -> Prop) (pre : list form) (b : binds) (w : W) : Prop :=
  forall p1 f p2, pre = p1 ++ f :: p2 -> P (value_after p1 f b w).

(* The first form of [fs] whose value is no [P] is [f]; the forms before it are
   [pre]. *)
Definition first_not (P : val -> Prop) (fs : list form) (pre : list form) (f : form) (b : binds) (w : W) : Prop :=
  (exists post, fs = pre ++ f :: post) /\ all_pass P pre b w /\ ~ P (value_after pre f b w).

(* Rounds: round [i] is run in a state, giving a value and a state. *)
Variable round : nat -> W -> val * W.

Fixpoint after_rounds (n : nat) (w : W) : W :=
  match n with O => w | S k => snd (round k (after_rounds k w)) end.

Definition round_value (n : nat) (w : W) : val := fst (round n (after_rounds n w)).

(* Of at most [lim] rounds, [n] are run whose values are [P]s; then either all
   are done, or the next gives a value which is no [P]. *)
Definition rounds_done (P : val -> Prop) (lim n : nat) (w : W) : Prop :=
  n = lim /\ forall i, i < n -> P (round_value i w).
Definition rounds_stop (P : val -> Prop) (lim n : nat) (w : W) : Prop :=
  n < lim /\ (forall i, i < n -> P (round_value i w)) /\ ~ P (round_value n w).

End Spec.

Arguments after {form W}. Arguments value_after {form W}. Arguments all_pass {form W}.
Arguments first_not {form W}. Arguments after_rounds {W}. Arguments round_value {W}.
Arguments rounds_done {W}. Arguments rounds_stop {W}.

(* A value which does not abort. *)
Definition fine (v : val) : Prop := v <> Brk /\ v <> Err.

(* The variables of a round of a loop over elements: the element, its number
   and the whole, the last two unless switched off. *)
Definition round_binds (var : sym) (cv wv : option sym) (whole elt : val) (i : nat) : binds :=
  (var, elt) :: (match cv with Some c => [(c, Int (Z.of_nat i))] | None => [] end)
             ++ (match wv with Some v => [(v, whole)] | None => [] end).

(* What #break ends a loop with is void. *)
Definition loop_value (v : val) : val := match v with Brk => Void | _ => v end.

(* A loop which evaluates a test and then the body as long as the test's value
   [goes], ends with [r]: after [k] such rounds either the test's value does not
   go, or a form of the body aborts. *)
Definition loop_ends {form W} (ev : form -> binds -> W -> val * W) (goes : val -> Prop)
  (test : form) (fs : list form) (b : binds) (w : W) (r : val * W) : Prop :=
  let at_ i := after ev (concat (repeat (test :: fs) i)) b w in
  let tv i := fst (ev test b (at_ i)) in
  let tw i := snd (ev test b (at_ i)) in
  exists k, (forall i, i < k -> goes (tv i) /\ all_pass ev fine fs b (tw i)) /\
    ((~ goes (tv k) /\ r = (match tv k with Void | Err => Err | _ => Void end, tw k)) \/
     (goes (tv k) /\ exists pre f, first_not ev fine fs pre f b (tw k) /\
        r = (loop_value (value_after ev pre f b (tw k)), after ev (pre ++ [f]) b (tw k)))).

(* A value which counts as true for WHILE. *)
Definition truthy (v : val) : Prop := fine v /\ v <> Fals /\ v <> Empty /\ v <> Void.

(* The test of a clause of COND. *)
Definition clause_test {form} (c : clause form) : option form :=
  match c with
  | Else _ | NoClause => None
  | Test t _ | Arrow t _ | NoArrow t => Some t
  end.

(* A loop which gets an element and runs a round with it, [r] doing both, ends
   with [res]: after [k] rounds either there are no more elements, or the round
   aborts. *)
Definition iter_ends {W} (next : W -> val * W) (r : nat -> W -> val * W) (w : W) (res : val * W) : Prop :=
  let elt i := next (after_rounds r i w) in
  exists k, (forall i, i < k -> fst (elt i) <> Eod /\ fine (round_value r i w)) /\
    ((fst (elt k) = Eod /\ res = (Void, snd (elt k))) \/
     (fst (elt k) <> Eod /\ ~ fine (round_value r k w) /\
        res = (loop_value (round_value r k w), after_rounds r (S k) w))).

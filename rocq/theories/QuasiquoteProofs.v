(** * Quasiquote: proofs about QuasiquoteModel.v. *)
From Coq Require Import NArith List Bool Arith Lia.
From Verif Require Import QuasiquoteModel.
Import ListNotations.

Section Proofs.
Variable St : Type.
Variable eval : val -> St -> option val * St.
Variable veq : val -> val -> bool.
Notation qq := (qq St eval veq).
Notation qq_list := (qq_list St eval veq).
Notation qq_elts := (qq_elts St eval veq).
Notation qq_choice := (qq_choice St eval veq).
Notation qq_map := (qq_map St eval veq).
Notation value_of := (value_of St eval).

Lemma qq_S k (level : nat) (obj : val) (s : St) : qq (S k) level obj s =

    match obj with
    | Err => (Abort, s)
    | Pair a d =>
      if bad_unquote a d then (Abort, s)
      else if is_sym 0 a then
        match d with
        | Pair x _ =>
          match qq k (S level) x s with
          | (Ok v, s') => (Ok (list2 quasi v), s')
          | o => o
          end
        | _ => (Abort, s)
        end
      else if is_sym 1 a then
        match one_elt d with
        | Some x =>
          if Nat.eqb level 1 then value_of x s
          else match qq k (level - 1) x s with
               | (Ok v, s') => (Ok (list2 unq v), s')
               | o => o
               end
        | None => (Abort, s)
        end
      else if is_sym 2 a then (Abort, s)
      else qq_list k level obj s
    | Vec [] => (Ok obj, s)
    | Vec l => match qq_elts k level l s with
               | (Some (Some vs), s') => (Ok (Vec vs), s')
               | (Some None, s') => (Abort, s')
               | (None, s') => (Stuck, s')
               end
    | Choice l => qq_choice k level l [] s
    | Map l => qq_map k level l [] s
    | _ => (Ok obj, s)
    end.
Proof. reflexivity. Qed.
Lemma qq_list_S k (level : nat) (obj : val) (s : St) : qq_list (S k) level obj s =

    match obj with
    | Pair elt rest =>
      let push (r : res * St) :=
        match r with
        | (Ok v, s1) =>
          match qq_list k level rest s1 with (Ok t, s2) => (Ok (Pair v t), s2) | o => o end
        | o => o
        end in
      match elt with
      | Sym _ =>
        if is_sym 1 elt then
          match one_elt rest with
          | None => (Abort, s)
          | Some x =>
            if Nat.eqb level 1 then value_of x s
            else match qq k (level - 1) x s with
                 | (Ok v, s') => (Ok (Pair unq v), s')
                 | o => o
                 end
          end
        else push (Ok elt, s)
      | Err => (Abort, s)
      | Void | Empty | Nil | Atom _ => push (Ok elt, s)
      | Pair a d =>
        if bad_unquote a d then (Abort, s)
        else if is_sym 1 a then
          match one_elt d with
          | None => (Abort, s)
          | Some x =>
            if Nat.eqb level 1 then push (value_of x s)
            else match qq k (level - 1) x s with
                 | (Ok v, s') => push (Ok (list2 unq v), s')
                 | o => o
                 end
          end
        else if is_sym 2 a then
          match one_elt d with
          | None => (Abort, s)
          | Some x =>
            if Nat.eqb level 1 then
              match value_of x s with
              | (Ok ins, s1) =>
                match splice_elts ins with
                | None => (Abort, s1)
                | Some vs =>
                  match qq_list k level rest s1 with
                  | (Ok t, s2) => (Ok (fold_right Pair t vs), s2)
                  | o => o
                  end
                end
              | o => o
              end
            else match qq k (level - 1) x s with
                 | (Ok v, s') => push (Ok (list2 unqs v), s')
                 | o => o
                 end
          end
        else push (qq k level elt s)
      | _ => push (qq k level elt s)
      end
    | Nil => (Ok Nil, s)
    | _ => qq k level obj s
    end.
Proof. reflexivity. Qed.
Lemma qq_elts_S k (level : nat) (l : list val) (s : St) : qq_elts (S k) level l s =

    match l with
    | [] => (Some (Some []), s)
    | elt :: r =>
      let one (q : res * St) :=
        match q with
        | (Ok Void, s1) => (Some None, s1)
        | (Ok v, s1) =>
          match qq_elts k level r s1 with
          | (Some (Some vs), s2) => (Some (Some (v :: vs)), s2)
          | o => o
          end
        | (Abort, s1) => (Some None, s1)
        | (Stuck, s1) => (None, s1)
        end in
      match elt with
      | Pair a (Pair x _) =>
        if is_sym 2 a then
          if Nat.eqb level 1 then
            match value_of x s with
            | (Ok ins, s1) =>
              match splice_elts ins with
              | None => (Some None, s1)
              | Some vs =>
                match qq_elts k level r s1 with
                | (Some (Some vs'), s2) => (Some (Some (vs ++ vs')), s2)
                | o => o
                end
              end
            | (Abort, s1) => (Some None, s1)
            | (Stuck, s1) => (None, s1)
            end
          else one (qq k (level - 1) elt s)
        else one (qq k level elt s)
      | _ => one (qq k level elt s)
      end
    end.
Proof. reflexivity. Qed.
Lemma qq_choice_S k (level : nat) (l : list val) (acc : list val) (s : St) : qq_choice (S k) level l acc s =

    match l with
    | [] => (Ok (mk_choice veq acc), s)
    | elt :: r =>
      match qq k level elt s with
      | (Ok v, s1) => qq_choice k level r (acc ++ members v) s1
      | o => o
      end
    end.
Proof. reflexivity. Qed.
Lemma qq_map_S k (level : nat) (l : list (val * val)) (acc : list (val * val)) (s : St) : qq_map (S k) level l acc s =

    match l with
    | [] => (Ok (Map acc), s)
    | (key, v) :: r =>
      let '(key', s1) := match key with Pair _ _ => qq k level key s | _ => (Ok key, s) end in
      match key' with
      | Stuck => (Stuck, s1)
      | Ok Empty | Ok Void => qq_map k level r acc s1
      | _ =>
        let slot := match key' with Ok x => x | _ => Err end in
        match v with
        | Pair _ _ | Vec _ | Map _ | Choice _ =>
          match qq k level v s1 with
          | (Ok v', s2) => qq_map k level r (store veq acc slot v') s2
          | o => o
          end
        | _ => qq_map k level r (store veq acc slot v) s1
        end
      end
    end.
Proof. reflexivity. Qed.

Lemma value_of_ends e s : fst (value_of e s) <> Stuck.
Proof. unfold QuasiquoteModel.value_of. destruct (eval e s) as [[[]|] s']; cbn; discriminate. Qed.

Definition lsize (l : list val) : nat := fold_right (fun x n => S (vsize x + n)) O l.
Definition msize (l : list (val * val)) : nat := fold_right (fun kv n => S (vsize (fst kv) + vsize (snd kv) + n)) O l.
Lemma vsize_vec l : vsize (Vec l) = S (lsize l). Proof. reflexivity. Qed.
Lemma vsize_choice l : vsize (Choice l) = S (lsize l). Proof. reflexivity. Qed.
Lemma vsize_map l : vsize (Map l) = S (msize l). Proof. reflexivity. Qed.
Lemma vsize_pos v : 1 <= vsize v. Proof. destruct v; cbn [vsize]; lia. Qed.
Definition lbound (v : val) : nat := match v with Pair _ _ => 2 * vsize v | _ => 2 * vsize v + 2 end.
Lemma lbound_le v : lbound v <= 2 * vsize v + 2. Proof. destruct v; cbn [lbound]; lia. Qed.

Lemma one_elt_eq d x : one_elt d = Some x -> d = Pair x Nil.
Proof. destruct d as [| | | | | | |a d| | |]; try discriminate. destruct d; try discriminate. cbn. congruence. Qed.

(** Enough fuel. *)
Lemma ends fuel :
  (forall lv o s, 2 * vsize o + 1 <= fuel -> fst (qq fuel lv o s) <> Stuck) /\
  (forall lv o s, lbound o <= fuel -> fst (qq_list fuel lv o s) <> Stuck) /\
  (forall lv l s, 2 * lsize l + 1 <= fuel -> fst (qq_elts fuel lv l s) <> None) /\
  (forall lv l acc s, 2 * lsize l + 1 <= fuel -> fst (qq_choice fuel lv l acc s) <> Stuck) /\
  (forall lv l acc s, 2 * msize l + 1 <= fuel -> fst (qq_map fuel lv l acc s) <> Stuck).
Proof.
  induction fuel as [|k [I1 [I2 [I3 [I4 I5]]]]].
  { repeat split; intros; try lia. pose proof (vsize_pos o). destruct o; cbn [lbound] in *; lia. }
  assert (V : forall e s r s', value_of e s = (r, s') -> r <> Stuck).
  { intros e s r s' E. pose proof (value_of_ends e s) as X. rewrite E in X. exact X. }
  assert (J1 : forall lv o s r s', qq k lv o s = (r, s') -> 2 * vsize o + 1 <= k -> r <> Stuck).
  { intros lv o s r s' E Hk. pose proof (I1 lv o s Hk) as X. rewrite E in X. exact X. }
  assert (J2 : forall lv o s r s', qq_list k lv o s = (r, s') -> lbound o <= k -> r <> Stuck).
  { intros lv o s r s' E Hk. pose proof (I2 lv o s Hk) as X. rewrite E in X. exact X. }
  assert (J3 : forall lv o s r s', qq_elts k lv o s = (r, s') -> 2 * lsize o + 1 <= k -> r <> None).
  { intros lv o s r s' E Hk. pose proof (I3 lv o s Hk) as X. rewrite E in X. exact X. }
  split; [|split; [|split; [|split]]].
  - intros lv o s Hk. rewrite qq_S. destruct o as [| | | | | | |a d|l|l|l]; try discriminate.
    + cbn [vsize] in Hk. pose proof (vsize_pos a). pose proof (vsize_pos d). destruct (bad_unquote a d); [discriminate|].
      destruct (is_sym 0 a).
      { destruct d as [| | | | | | |x d| | |]; try discriminate. cbn [vsize] in *.
        destruct (qq k (S lv) x s) as [r s'] eqn:E. apply J1 in E; [|lia]. destruct r; [contradiction|discriminate|discriminate]. }
      destruct (is_sym 1 a).
      { destruct (one_elt d) as [x|] eqn:Ed; [|discriminate]. apply one_elt_eq in Ed. subst d. cbn [vsize] in *.
        destruct (lv =? 1); [apply value_of_ends|].
        destruct (qq k (lv - 1) x s) as [r s'] eqn:E. apply J1 in E; [|lia]. destruct r; [contradiction|discriminate|discriminate]. }
      destruct (is_sym 2 a); [discriminate|]. apply I2. cbn [lbound vsize]. lia.
    + rewrite vsize_vec in Hk. destruct l as [|x l]; [discriminate|].
      destruct (qq_elts k lv (x :: l) s) as [r s'] eqn:E. apply J3 in E; [|lia]. destruct r as [[vs|]|]; [cbn; discriminate|cbn; discriminate|contradiction].
    + rewrite vsize_choice in Hk. apply I4. lia.
    + rewrite vsize_map in Hk. apply I5. lia.
  - intros lv o s Hk. rewrite qq_list_S.
    destruct o as [| | | | | | |elt rest|l|l|l]; try (apply I1; cbn [lbound] in Hk; lia); [discriminate|].
    cbn [lbound vsize] in Hk. pose proof (vsize_pos elt). pose proof (vsize_pos rest).
    assert (HR : lbound rest <= k) by (pose proof (lbound_le rest); lia).
    set (push := fun r : res * St => _).
    assert (P : forall r, fst r <> Stuck -> fst (push r) <> Stuck).
    { intros [[| |v] s1] X; [contradiction|discriminate|]. cbn. destruct (qq_list k lv rest s1) as [r s2] eqn:E. apply J2 in E; [|exact HR].
      destruct r; [contradiction|discriminate|discriminate]. }
    assert (PQ : fst (push (qq k lv elt s)) <> Stuck) by (apply P, I1; lia).
    destruct elt as [| | | |q| | |a d|l|l|l]; try discriminate; try exact PQ; try (apply P; discriminate).
    + destruct (is_sym 1 (Sym q)); [|apply P; discriminate].
      destruct (one_elt rest) as [x|] eqn:Ed; [|discriminate]. apply one_elt_eq in Ed. subst rest. cbn [vsize] in *.
      destruct (lv =? 1); [apply value_of_ends|].
      destruct (qq k (lv - 1) x s) as [r s'] eqn:E. apply J1 in E; [|lia]. destruct r; [contradiction|discriminate|discriminate].
    + destruct (bad_unquote a d); [discriminate|]. destruct (is_sym 1 a).
      { destruct (one_elt d) as [x|] eqn:Ed; [|discriminate]. apply one_elt_eq in Ed. subst d. cbn [vsize] in *.
        destruct (lv =? 1); [apply P, value_of_ends|].
        destruct (qq k (lv - 1) x s) as [r s'] eqn:E. apply J1 in E; [|lia]. destruct r; [contradiction|discriminate|apply P; discriminate]. }
      destruct (is_sym 2 a); [|exact PQ].
      destruct (one_elt d) as [x|] eqn:Ed; [|discriminate]. apply one_elt_eq in Ed. subst d. cbn [vsize] in *.
      destruct (lv =? 1).
      * destruct (value_of x s) as [r s1] eqn:E. apply V in E. destruct r; [contradiction|discriminate|].
        destruct (splice_elts v); [|discriminate]. destruct (qq_list k lv rest s1) as [r s2] eqn:E2. apply J2 in E2; [|exact HR].
        destruct r; [contradiction|discriminate|discriminate].
      * destruct (qq k (lv - 1) x s) as [r s'] eqn:E. apply J1 in E; [|lia]. destruct r; [contradiction|discriminate|apply P; discriminate].
  - intros lv l s Hk. rewrite qq_elts_S. destruct l as [|elt r]; [discriminate|].
    change (lsize (elt :: r)) with (S (vsize elt + lsize r)) in Hk.
    set (one := fun q : res * St => _).
    assert (P : forall q, fst q <> Stuck -> fst (one q) <> None).
    { intros [[| |v] s1] X; [contradiction|discriminate|]. cbn. destruct (qq_elts k lv r s1) as [w s2] eqn:E. apply J3 in E; [|lia].
      destruct w as [[vs2|]|]; [| |contradiction]; destruct v; discriminate. }
    assert (PQ : forall lv', fst (one (qq k lv' elt s)) <> None) by (intros; apply P, I1; lia).
    destruct elt as [| | | | | | |a d| | |]; try apply PQ. destruct d as [| | | | | | |x d| | |]; try apply PQ.
    destruct (is_sym 2 a); [|apply PQ]. destruct (lv =? 1); [|apply PQ].
    destruct (value_of x s) as [w s1] eqn:E. apply V in E. destruct w; [contradiction|discriminate|].
    destruct (splice_elts v); [|discriminate]. destruct (qq_elts k lv r s1) as [w s2] eqn:E2. apply J3 in E2; [|lia].
    destruct w as [[vs2|]|]; [cbn; discriminate|cbn; discriminate|contradiction].
  - intros lv l acc s Hk. rewrite qq_choice_S. destruct l as [|elt r]; [discriminate|].
    change (lsize (elt :: r)) with (S (vsize elt + lsize r)) in Hk.
    destruct (qq k lv elt s) as [w s1] eqn:E. apply J1 in E; [|lia]. destruct w; [contradiction|discriminate|]. apply I4. lia.
  - intros lv l acc s Hk. rewrite qq_map_S. destruct l as [|[key v] r]; [discriminate|].
    change (msize ((key, v) :: r)) with (S (vsize key + vsize v + msize r)) in Hk.
    assert (exists key' s1, (match key with Pair _ _ => qq k lv key s | _ => (Ok key, s) end) = (key', s1) /\ key' <> Stuck) as [key' [s1 [-> X]]].
    { assert (Q : exists key' s1, qq k lv key s = (key', s1) /\ key' <> Stuck).
      { destruct (qq k lv key s) as [w s1] eqn:E. exists w, s1. split; [reflexivity|]. eapply J1; [exact E|lia]. }
      destruct key; try exact Q; eexists; eexists; (split; [reflexivity|discriminate]). }
    cbn iota beta.
    assert (R : forall slot, fst (match v with
        | Pair _ _ | Vec _ | Map _ | Choice _ =>
          match qq k lv v s1 with (Ok v', s2) => qq_map k lv r (store veq acc slot v') s2 | o => o end
        | _ => qq_map k lv r (store veq acc slot v) s1 end) <> Stuck).
    { intros slot. assert (Q : fst (match qq k lv v s1 with (Ok v', s2) => qq_map k lv r (store veq acc slot v') s2 | o => o end) <> Stuck).
      { destruct (qq k lv v s1) as [w s2] eqn:E. apply J1 in E; [|lia]. destruct w; [contradiction|discriminate|]. apply I5. lia. }
      destruct v; try exact Q; apply I5; lia. }
    destruct key' as [| |x]; [contradiction|apply R|]. destruct x; try apply R; apply I5; lia.
Qed.

(** VOID does not occur in a value. *)
Fixpoint novoid (v : val) : Prop :=
  match v with
  | Void => False
  | Pair a d => novoid a /\ novoid d
  | Vec l | Choice l => (fix all (l : list val) : Prop := match l with [] => True | x :: r => novoid x /\ all r end) l
  | Map l => (fix all (l : list (val * val)) : Prop := match l with [] => True | (k, x) :: r => novoid k /\ novoid x /\ all r end) l
  | _ => True
  end.
Definition novoids := fix all (l : list val) : Prop := match l with [] => True | x :: r => novoid x /\ all r end.

Lemma value_of_void e s s' : value_of e s <> (Ok Void, s').
Proof. unfold QuasiquoteModel.value_of. destruct (eval e s) as [[[]|] s1]; discriminate. Qed.

Lemma distinct_in l x : In x (distinct veq l) -> In x l.
Proof.
  induction l as [|y r IH]; [exact (fun H => H)|]. cbn [distinct]. destruct (existsb (veq y) r); intros H; [right; apply IH, H|].
  destruct H as [->|H]; [left; reflexivity|right; apply IH, H].
Qed.
(** Members of a value: none is VOID, none is a choice. *)
Definition flat (v : val) : Prop := forall x, In x (members v) -> x <> Void /\ members x = [x].
Lemma flat_one v : members v = [v] -> v <> Void -> flat v.
Proof. intros E H x. rewrite E. intros [<-|[]]. split; assumption. Qed.
Lemma mk_choice_flat l : (forall x, In x l -> x <> Void /\ members x = [x]) -> flat (mk_choice veq l).
Proof.
  intros H. unfold mk_choice. assert (D : forall x, In x (distinct veq l) -> x <> Void /\ members x = [x]) by (intros x X; apply H, distinct_in, X).
  destruct (distinct veq l) as [|a [|b r]] eqn:E.
  - intros x [].
  - destruct (D a (or_introl eq_refl)). apply flat_one; assumption.
  - intros x X. apply D. exact X.
Qed.

(** Choices that evaluating gives are so. *)
Hypothesis eval_flat : forall e s v s', eval e s = (Some v, s') -> v <> Void -> flat v.
Definition sound (r : res) : Prop := match r with Ok v => flat v | _ => True end.

Lemma value_of_sound e s : sound (fst (value_of e s)).
Proof.
  unfold QuasiquoteModel.value_of. pose proof (eval_flat e s) as H. destruct (eval e s) as [[v|] s1]; [|exact I].
  specialize (H v s1 eq_refl). destruct v; try exact I; apply H; discriminate.
Qed.

Lemma splice_sound v vs : flat v -> flat (fold_right Pair v vs).
Proof. destruct vs; [exact (fun H => H)|]. intros _. apply flat_one; [reflexivity|discriminate]. Qed.

Lemma never_void fuel :
  (forall lv o s, novoid o -> sound (fst (qq fuel lv o s))) /\
  (forall lv o s, novoid o -> sound (fst (qq_list fuel lv o s))) /\
  (forall lv l acc s, novoids l -> (forall x, In x acc -> x <> Void /\ members x = [x]) -> sound (fst (qq_choice fuel lv l acc s))) /\
  (forall lv l acc s, sound (fst (qq_map fuel lv l acc s))).
Proof.
  pose proof flat_one as T.
  induction fuel as [|k [I1 [I2 [I3 I4]]]]; [repeat split; intros; exact I|].
  assert (J1 : forall lv o s r s1, qq k lv o s = (r, s1) -> novoid o -> sound r).
  { intros lv o s r s1 E Ho. pose proof (I1 lv o s Ho) as X. rewrite E in X. exact X. }
  assert (J2 : forall lv o s r s1, qq_list k lv o s = (r, s1) -> novoid o -> sound r).
  { intros lv o s r s1 E Ho. pose proof (I2 lv o s Ho) as X. rewrite E in X. exact X. }
  split; [|split; [|split]].
  - intros lv o s Nv. rewrite qq_S. destruct o as [| | | | | | |a d|l|l|l]; try exact I; try (apply T; [reflexivity|discriminate]).
    + destruct Nv.
    + intros x [].
    + destruct Nv as [Na Nd]. destruct (bad_unquote a d); [exact I|]. destruct (is_sym 0 a).
      { destruct d as [| | | | | | |x d| | |]; try exact I. destruct (qq k (S lv) x s) as [[] s1]; try exact I. apply T; [reflexivity|discriminate]. }
      destruct (is_sym 1 a).
      { destruct (one_elt d) as [x|]; [|exact I]. destruct (lv =? 1); [apply value_of_sound|].
        destruct (qq k (lv - 1) x s) as [[] s1]; try exact I. apply T; [reflexivity|discriminate]. }
      destruct (is_sym 2 a); [exact I|]. apply I2. split; assumption.
    + destruct l; [apply T; [reflexivity|discriminate]|].
      destruct (qq_elts k lv (v :: l) s) as [[[]|] s1]; try exact I. apply T; [reflexivity|discriminate].
    + apply I3; [exact Nv|intros x []].
    + apply I4.
  - intros lv o s Nv. rewrite qq_list_S. destruct o as [| | | | | | |elt rest|l|l|l]; try (apply I1; exact Nv).
    + apply T; [reflexivity|discriminate].
    + destruct Nv as [Ne Nr]. set (push := fun r : res * St => _).
      assert (P : forall r, sound (fst (push r))).
      { intros [[| |v] s1]; try exact I. cbn. destruct (qq_list k lv rest s1) as [[] s2]; try exact I. apply T; [reflexivity|discriminate]. }
      destruct elt as [| | | |q| | |a d|l|l|l]; try apply P; try exact I.
      * destruct (is_sym 1 (Sym q)); [|apply P]. destruct (one_elt rest) as [x|]; [|exact I].
        destruct (lv =? 1); [apply value_of_sound|]. destruct (qq k (lv - 1) x s) as [[] s1]; try exact I. apply T; [reflexivity|discriminate].
      * destruct (bad_unquote a d); [exact I|]. destruct (is_sym 1 a).
        { destruct (one_elt d) as [x|]; [|exact I]. destruct (lv =? 1); [apply P|]. destruct (qq k (lv - 1) x s) as [[] s1]; try exact I. apply P. }
        destruct (is_sym 2 a); [|apply P]. destruct (one_elt d) as [x|]; [|exact I]. destruct (lv =? 1).
        -- destruct (value_of x s) as [[] s1]; try exact I. destruct (splice_elts v); [|exact I].
           destruct (qq_list k lv rest s1) as [r s2] eqn:E. apply J2 in E; [|exact Nr]. destruct r; try exact I. apply splice_sound, E.
        -- destruct (qq k (lv - 1) x s) as [[] s1]; try exact I. apply P.
  - intros lv l acc s Nv Ha. rewrite qq_choice_S. destruct l as [|elt r]; [apply mk_choice_flat, Ha|].
    destruct Nv as [Ne Nr]. destruct (qq k lv elt s) as [w s1] eqn:E. apply J1 in E; [|exact Ne]. destruct w as [| |v]; try exact I.
    apply I3; [exact Nr|]. intros x X. apply in_app_or in X. destruct X as [X|X]; [exact (Ha x X)|]. apply (E x X).
  - intros lv l acc s. rewrite qq_map_S. destruct l as [|[key v] r]; [apply T; [reflexivity|discriminate]|].
    destruct (match key with Pair _ _ => qq k lv key s | _ => (Ok key, s) end) as [key' s1].
    assert (R : forall slot, sound (fst (match v with
        | Pair _ _ | Vec _ | Map _ | Choice _ =>
          match qq k lv v s1 with (Ok v', s2) => qq_map k lv r (store veq acc slot v') s2 | o => o end
        | _ => qq_map k lv r (store veq acc slot v) s1 end))).
    { intros slot. assert (Q : sound (fst (match qq k lv v s1 with (Ok v', s2) => qq_map k lv r (store veq acc slot v') s2 | o => o end))).
      { destruct (qq k lv v s1) as [[] s2]; try exact I. apply I4. }
      destruct v; try exact Q; apply I4. }
    destruct key' as [| |x]; [exact I|apply R|]. destruct x; try apply R; apply I4.
Qed.

End Proofs.

(** A value without the three symbols, VOID and errors; choices have two elements or more, none
    of them a choice and no two alike; the keys of a slotmap are no two alike and not the
    empty choice. *)
Section Inert.
Variable veq : val -> val -> bool.
Fixpoint inert (v : val) : Prop :=
  match v with
  | Void | Err => False
  | Sym _ => is_sym 0 v = false /\ is_sym 1 v = false /\ is_sym 2 v = false
  | Empty | Nil | Atom _ | Obj _ => True
  | Pair a d => inert a /\ inert d
  | Vec l => (fix all (l : list val) : Prop := match l with [] => True | x :: r => inert x /\ all r end) l
  | Choice l => 2 <= length l /\
    (fix all (l : list val) : Prop :=
       match l with [] => True | x :: r => (inert x /\ members x = [x] /\ existsb (veq x) r = false) /\ all r end) l
  | Map l =>
    (fix all (seen : list val) (l : list (val * val)) : Prop :=
       match l with
       | [] => True
       | (k, x) :: r => (inert k /\ k <> Empty /\ (forall k', In k' seen -> veq k k' = false) /\ inert x) /\ all (seen ++ [k]) r
       end) [] l
  end.
Definition inerts := fix all (l : list val) : Prop := match l with [] => True | x :: r => inert x /\ all r end.
Definition cinerts := fix all (l : list val) : Prop :=
   match l with [] => True | x :: r => (inert x /\ members x = [x] /\ existsb (veq x) r = false) /\ all r end.
Definition minerts := fix all (seen : list val) (l : list (val * val)) : Prop :=
   match l with
   | [] => True
   | (k, x) :: r => (inert k /\ k <> Empty /\ (forall k', In k' seen -> veq k k' = false) /\ inert x) /\ all (seen ++ [k]) r
   end.

Variable St : Type.
Variable eval : val -> St -> option val * St.
Notation qq := (qq St eval veq).
Notation qq_list := (qq_list St eval veq).
Notation qq_elts := (qq_elts St eval veq).
Notation qq_choice := (qq_choice St eval veq).
Notation qq_map := (qq_map St eval veq).

Lemma inert_head a d : inert a -> bad_unquote a d = false /\ is_sym 0 a = false /\ is_sym 1 a = false /\ is_sym 2 a = false.
Proof.
  intros H. assert (X : is_sym 0 a = false /\ is_sym 1 a = false /\ is_sym 2 a = false) by (destruct a; try (repeat split; reflexivity); exact H).
  destruct X as [X0 [X1 X2]]. unfold bad_unquote. rewrite X0, X1, X2. repeat split.
Qed.
Lemma distinct_same l : cinerts l -> distinct veq l = l.
Proof. induction l as [|x r IH]; [reflexivity|]. intros [[_ [_ H]] Hr]. cbn [distinct]. rewrite H, (IH Hr). reflexivity. Qed.
Lemma put_end m k v : (forall k', In k' (map fst m) -> veq k k' = false) -> put veq m k v = m ++ [(k, v)].
Proof.
  induction m as [|[k' v'] r IH]; intros H; [reflexivity|]. cbn [put]. rewrite (H k' (or_introl eq_refl)), IH; [reflexivity|].
  intros k2 X. apply H. right. exact X.
Qed.

Lemma inert_same fuel :
  (forall lv o s, inert o -> 2 * vsize o + 1 <= fuel -> qq fuel lv o s = (Ok o, s)) /\
  (forall lv o s, inert o -> lbound o <= fuel -> qq_list fuel lv o s = (Ok o, s)) /\
  (forall lv l s, inerts l -> 2 * lsize l + 1 <= fuel -> qq_elts fuel lv l s = (Some (Some l), s)) /\
  (forall lv l acc s, cinerts l -> 2 * lsize l + 1 <= fuel -> qq_choice fuel lv l acc s = (Ok (mk_choice veq (acc ++ l)), s)) /\
  (forall lv l acc s, minerts (map fst acc) l -> 2 * msize l + 1 <= fuel -> qq_map fuel lv l acc s = (Ok (Map (acc ++ l)), s)).
Proof.
  induction fuel as [|k [I1 [I2 [I3 [I4 I5]]]]].
  { repeat split; intros; try lia. pose proof (vsize_pos o). destruct o; cbn [lbound] in *; lia. }
  split; [|split; [|split; [|split]]].
  - intros lv o s Hi Hk. rewrite qq_S. destruct o as [| | | | | | |a d|l|l|l]; try reflexivity; try contradiction.
    + destruct Hi as [Ha Hd]. destruct (inert_head a d Ha) as [-> [-> [-> ->]]]. cbn [vsize] in Hk. apply I2; [split; assumption|cbn [lbound vsize]; lia].
    + rewrite vsize_vec in Hk. destruct l as [|x l]; [reflexivity|]. rewrite I3; [reflexivity|exact Hi|lia].
    + rewrite vsize_choice in Hk. destruct Hi as [Hl Hi]. change (cinerts l) in Hi. rewrite I4; [|exact Hi|lia]. cbn [app].
      unfold mk_choice. rewrite (distinct_same l Hi). destruct l as [|x [|y r]]; [cbn in Hl; lia|cbn in Hl; lia|reflexivity].
    + rewrite vsize_map in Hk. change (minerts [] l) in Hi. rewrite I5; [reflexivity|exact Hi|lia].
  - intros lv o s Hi Hk. rewrite qq_list_S. destruct o as [| | | | | | |elt rest|l|l|l]; try reflexivity;
      try (apply I1; [exact Hi|cbn [lbound] in Hk; lia]).
    destruct Hi as [He Hr]. cbn [lbound vsize] in Hk. pose proof (vsize_pos elt). pose proof (lbound_le rest).
    assert (Q0 : (match qq_list k lv rest s with (Ok t, s2) => (Ok (Pair elt t), s2) | o => o end) = (Ok (Pair elt rest), s)).
    { rewrite (I2 lv rest s Hr) by lia. reflexivity. }
    assert (Q : (let push := fun r : res * St => match r with (Ok v, s1) => match qq_list k lv rest s1 with (Ok t, s2) => (Ok (Pair v t), s2) | o => o end | o => o end in push (qq k lv elt s)) = (Ok (Pair elt rest), s)).
    { cbv zeta. rewrite (I1 lv elt s He) by lia. rewrite (I2 lv rest s Hr) by lia. reflexivity. }
    destruct elt as [| | | |q| | |a d|l|l|l]; try contradiction; try exact Q0; try exact Q.
    + destruct (inert_head (Sym q) Nil He) as [_ [_ [-> _]]]. exact Q0.
    + destruct He as [Ha Hd]. destruct (inert_head a d Ha) as [-> [_ [-> ->]]]. exact Q.
  - intros lv l s Hi Hk. rewrite qq_elts_S. destruct l as [|elt r]; [reflexivity|]. destruct Hi as [He Hr].
    change (lsize (elt :: r)) with (S (vsize elt + lsize r)) in Hk.
    assert (Q : (match qq k lv elt s with (Ok Void, s1) => (Some None, s1)
      | (Ok v, s1) => match qq_elts k lv r s1 with (Some (Some vs), s2) => (Some (Some (v :: vs)), s2) | o => o end
      | (Abort, s1) => (Some None, s1) | (Stuck, s1) => (None, s1) end) = (Some (Some (elt :: r)), s)).
    { rewrite (I1 lv elt s He) by lia. rewrite (I3 lv r s Hr) by lia. destruct elt; try reflexivity. contradiction. }
    destruct elt as [| | | | | | |a d| | |]; try exact Q. destruct d as [| | | | | | |x d| | |]; try exact Q.
    destruct He as [Ha _]. destruct (inert_head a Nil Ha) as [_ [_ [_ ->]]]. exact Q.
  - intros lv l acc s Hi Hk. rewrite qq_choice_S. destruct l as [|elt r]; [rewrite app_nil_r; reflexivity|].
    destruct Hi as [[He [Hm _]] Hr]. change (lsize (elt :: r)) with (S (vsize elt + lsize r)) in Hk.
    rewrite (I1 lv elt s He) by lia. rewrite I4; [|exact Hr|lia]. rewrite Hm, <- app_assoc. reflexivity.
  - intros lv l acc s Hi Hk. rewrite qq_map_S. destruct l as [|[key v] r]; [rewrite app_nil_r; reflexivity|].
    destruct Hi as [[Hkey [Hne [Hnew Hv]]] Hr]. change (msize ((key, v) :: r)) with (S (vsize key + vsize v + msize r)) in Hk.
    assert ((match key with Pair _ _ => qq k lv key s | _ => (Ok key, s) end) = (Ok key, s)) as ->.
    { destruct key; try reflexivity. apply I1; [exact Hkey|lia]. }
    assert (HS : store veq acc key v = acc ++ [(key, v)]).
    { transitivity (put veq acc key v); [|apply put_end, Hnew]. destruct key; try contradiction; destruct v; try contradiction; reflexivity. }
    assert (HN : qq_map k lv r (store veq acc key v) s = (Ok (Map (acc ++ (key, v) :: r)), s)).
    { rewrite I5; [|rewrite HS, map_app; exact Hr|lia]. rewrite HS, <- app_assoc. reflexivity. }
    assert (R : (match v with
        | Pair _ _ | Vec _ | Map _ | Choice _ =>
          match qq k lv v s with (Ok v', s2) => qq_map k lv r (store veq acc key v') s2 | o => o end
        | _ => qq_map k lv r (store veq acc key v) s end) = (Ok (Map (acc ++ (key, v) :: r)), s)).
    { assert (Q : (match qq k lv v s with (Ok v', s2) => qq_map k lv r (store veq acc key v') s2 | o => o end) = (Ok (Map (acc ++ (key, v) :: r)), s)).
      { rewrite (I1 lv v s Hv) by lia. exact HN. }
      destruct v; try exact Q; exact HN. }
    destruct key; try contradiction; exact R.
Qed.

End Inert.

(* C128, C129: conditionals, sequencing and loops *)

From Coq Require Import List ZArith Bool Lia.
Import ListNotations.
From Verif Require Import ControlModel ControlSpec ControlProofs.
Open Scope nat_scope.

(* For the cases: a form is a number of effect and a value; the state is the
   list of the effects, and the value may be the loop's first variable. *)
Inductive cform := Do (n : nat) (v : val) | Ref (n : nat) | Once (n : nat).
Definition cev (f : cform) (b : binds) (w : list nat) : val * list nat :=
  match f with
  | Do n v => (v, w ++ [n])
  | Ref n => (match b with (_, v) :: _ => v | [] => Err end, w ++ [n])
  | Once n => (if length w <? n then Tru else Fals, w ++ [n])
  end.

(** * C128 *)

(** BEGIN evaluates its forms in order up to the first which aborts and returns
    that value, or that of the last if none does; nothing after it is evaluated. *)
Theorem C128_begin : forall form W (ev : form -> binds -> W -> val * W) fs b w,
  (fs = [] /\ begin_evalfn ev fs b w = (Void, w)) \/
  (exists pre f, fs = pre ++ [f] /\ all_pass ev fine fs b w /\
     begin_evalfn ev fs b w = (value_after ev pre f b w, after ev fs b w)) \/
  (exists pre f, first_not ev fine fs pre f b w /\
     begin_evalfn ev fs b w = (value_after ev pre f b w, after ev (pre ++ [f]) b w)).
Proof.
  intros form W ev fs b w.
  destruct (pass_or_not form W ev fine fine_dec fs b w) as [A|(pre & f & A)].
  - destruct fs as [|x fs]; [now left|]. right; left.
    destruct (exists_last (l := x :: fs) ltac:(discriminate)) as (pre & f & E).
    exists pre, f. rewrite E in *. split; [reflexivity|]. split; [exact A|].
    apply body_last. intros p1 g p2 EQ. apply (A p1 g (p2 ++ [f])).
    rewrite EQ, <- app_assoc. reflexivity.
  - right; right. exists pre, f. split; [exact A|]. now apply body_stop.
Qed.
Print Assumptions C128_begin.

Example C128_begin_case :
  begin_evalfn cev [Do 1 Tru; Do 2 Err; Do 3 Tru] [] [] = (Err, [1; 2]) /\
  first_not cev fine [Do 1 Tru; Do 2 Err; Do 3 Tru] [Do 1 Tru] (Do 2 Err) [] [].
Proof.
  split; [reflexivity|]. split; [exists [Do 3 Tru]; reflexivity|]. split.
  - apply all_pass_cons. split; [split; discriminate|apply all_pass_nil].
  - intros [_ H]. apply H. reflexivity.
Qed.

(** PROG1 returns the first form's value after evaluating all others, unless one
    of them aborts, whose value it returns then. *)
Theorem C128_prog1 : forall form W (ev : form -> binds -> W -> val * W) f fs b w v w1,
  ev f b w = (v, w1) -> fine v ->
  (all_pass ev fine fs b w1 -> prog1_evalfn ev f fs b w = (v, after ev fs b w1)) /\
  (forall pre g, first_not ev fine fs pre g b w1 ->
     prog1_evalfn ev f fs b w = (value_after ev pre g b w1, after ev (pre ++ [g]) b w1)).
Proof.
  intros form W ev f fs b w v w1 E FV. apply fine_spec in FV.
  unfold prog1_evalfn. rewrite E, FV.
  destruct (scan_spec form W ev val (fun fs w => prog1_loop ev fs v b w) fine (fun x => x) b) as [A B].
  - intros g gs x FG. apply fine_spec in FG. cbn. destruct (ev g b x) as [u x1]. cbn in FG. rewrite FG.
    destruct u; try discriminate; reflexivity.
  - intros g gs x NF. cbn. destruct (ev g b x) as [u x1]. cbn in *.
    destruct (aborted u) eqn:Q; [reflexivity|]. elim NF. now apply fine_spec.
  - split; [intros P; rewrite (A fs w1 P); reflexivity|]. intros pre g FN. exact (B fs pre g w1 FN).
Qed.
Print Assumptions C128_prog1.

Example C128_prog1_case : prog1_evalfn cev (Do 1 (Int 5)) [Do 2 Fals; Do 3 Empty] [] [] = (Int 5, [1; 2; 3]) /\
  all_pass cev fine [Do 2 Fals; Do 3 Empty] [] [1].
Proof.
  split; [reflexivity|]. repeat (apply all_pass_cons; split; [split; discriminate|]). apply all_pass_nil.
Qed.

(** AND evaluates its clauses in order up to the first which aborts or is #f or
    {}, and returns that value, or the value of the last clause; #t without any. *)
Theorem C128_and : forall form W (ev : form -> binds -> W -> val * W) fs b w,
  let P v := fine v /\ v <> Fals /\ v <> Empty in
  (fs = [] /\ and_evalfn ev fs b w = (Tru, w)) \/
  (exists pre f, fs = pre ++ [f] /\ all_pass ev P fs b w /\
     and_evalfn ev fs b w = (value_after ev pre f b w, after ev fs b w)) \/
  (exists pre f, first_not ev P fs pre f b w /\
     and_evalfn ev fs b w = (value_after ev pre f b w, after ev (pre ++ [f]) b w)).
Proof.
  intros form W ev fs b w P.
  assert (D : forall v, {P v} + {~ P v}).
  { intros v. unfold P, fine. destruct v; try (left; repeat split; discriminate); right; tauto. }
  destruct (last_spec form W ev (fun fs v w => and_loop ev fs v b w) P (fun x => x) b) as [A B].
  - reflexivity.
  - intros f gs v x Q. cbn. destruct (ev f b x) as [u x1]. cbn in Q. unfold P, fine in Q.
    destruct u; try reflexivity; tauto.
  - intros f gs v x Q. cbn. destruct (ev f b x) as [u x1]. cbn in Q. unfold P, fine in Q.
    destruct u; try reflexivity; elim Q; repeat split; discriminate.
  - destruct (pass_or_not form W ev P D fs b w) as [Q|(pre & f & Q)].
    + destruct fs as [|x fs]; [now left|]. right; left.
      destruct (exists_last (l := x :: fs) ltac:(discriminate)) as (pre & f & E).
      exists pre, f. rewrite E in *. split; [reflexivity|]. split; [exact Q|]. apply A. exact Q.
    + right; right. exists pre, f. split; [exact Q|]. exact (B fs pre f Tru w Q).
Qed.
Print Assumptions C128_and.

Example C128_and_case : and_evalfn cev [Do 1 Tru; Do 2 Empty; Do 3 Tru] [] [] = (Empty, [1; 2]).
Proof. reflexivity. Qed.

(** OR evaluates its clauses in order up to the first which aborts or is neither
    #f nor {}, and returns that value, or the value of the last clause; #f
    without any. *)
Theorem C128_or : forall form W (ev : form -> binds -> W -> val * W) fs b w,
  let P v := v = Fals \/ v = Empty in
  (fs = [] /\ or_evalfn ev fs b w = (Fals, w)) \/
  (exists pre f, fs = pre ++ [f] /\ all_pass ev P fs b w /\
     or_evalfn ev fs b w = (value_after ev pre f b w, after ev fs b w)) \/
  (exists pre f, first_not ev P fs pre f b w /\
     or_evalfn ev fs b w = (value_after ev pre f b w, after ev (pre ++ [f]) b w)).
Proof.
  intros form W ev fs b w P.
  assert (D : forall v, {P v} + {~ P v}).
  { intros v. unfold P. destruct v; try (left; tauto); right; intros [H|H]; discriminate. }
  destruct (last_spec form W ev (fun fs v w => or_loop ev fs v b w) P (fun x => x) b) as [A B].
  - reflexivity.
  - intros f gs v x Q. cbn. destruct (ev f b x) as [u x1]. cbn in Q.
    destruct Q as [-> | ->]; reflexivity.
  - intros f gs v x Q. cbn. destruct (ev f b x) as [u x1]. cbn in Q. unfold P in Q.
    destruct u; try reflexivity; tauto.
  - destruct (pass_or_not form W ev P D fs b w) as [Q|(pre & f & Q)].
    + destruct fs as [|x fs]; [now left|]. right; left.
      destruct (exists_last (l := x :: fs) ltac:(discriminate)) as (pre & f & E).
      exists pre, f. rewrite E in *. split; [reflexivity|]. split; [exact Q|]. apply A. exact Q.
    + right; right. exists pre, f. split; [exact Q|]. exact (B fs pre f Fals w Q).
Qed.
Print Assumptions C128_or.

Example C128_or_case : or_evalfn cev [Do 1 Fals; Do 2 (Int 4); Do 3 Tru] [] [] = (Int 4, [1; 2]).
Proof. reflexivity. Qed.

(** TRYIF with a true test evaluates its clauses in order up to the first whose
    value is not {} and returns it, or an error if it is void; {} if there is
    none. *)
Theorem C128_tryif : forall form W (ev : form -> binds -> W -> val * W) test fs b w t w1,
  ev test b w = (t, w1) -> truthy t -> fs <> [] ->
  let P v := v = Empty in
  (all_pass ev P fs b w1 /\ tryif_evalfn ev test fs b w = (Empty, after ev fs b w1)) \/
  (exists pre f, first_not ev P fs pre f b w1 /\
     tryif_evalfn ev test fs b w =
       (match value_after ev pre f b w1 with Void => Err | v => v end, after ev (pre ++ [f]) b w1)).
Proof.
  intros form W ev test fs b w t w1 E T NE P.
  assert (D : forall v, {P v} + {~ P v}).
  { intros v. unfold P. destruct v; try (left; reflexivity); right; discriminate. }
  assert (X : tryif_evalfn ev test fs b w = try_clauses ev fs Void b w1).
  { unfold tryif_evalfn, testeval. rewrite E. unfold truthy, fine in T.
    destruct t; try reflexivity; decompose [and] T; congruence. }
  destruct (last_spec form W ev (fun fs v w => try_clauses ev fs v b w) P
              (fun x => match x with Void => Err | v => v end) b) as [A B].
  - reflexivity.
  - intros f gs v x Q. cbn. destruct (ev f b x) as [u x1]. cbn in Q. unfold P in Q. now subst u.
  - intros f gs v x Q. cbn. destruct (ev f b x) as [u x1]. cbn in Q. unfold P in Q.
    destruct u; try reflexivity; congruence.
  - destruct (pass_or_not form W ev P D fs b w1) as [Q|(pre & f & Q)].
    + left. split; [exact Q|]. rewrite X.
      destruct (exists_last NE) as (pre & f & EF). rewrite EF in *.
      rewrite (A pre f Void w1 Q). f_equal. exact (Q pre f [] eq_refl).
    + right. exists pre, f. split; [exact Q|]. rewrite X, (B fs pre f Void w1 Q).
      destruct (value_after ev pre f b w1); reflexivity.
Qed.
Print Assumptions C128_tryif.

Example C128_tryif_case : tryif_evalfn cev (Do 0 Tru) [Do 1 Empty; Do 2 (Int 4); Do 3 Tru] [] [] = (Int 4, [0; 1; 2]).
Proof. reflexivity. Qed.

(** COND evaluates the tests of its clauses in order as long as they are #f; the
    first clause whose test is not, or an else clause, decides; void if there is
    none. *)
Theorem C128_cond : forall form W (ev : form -> binds -> W -> val * W) applicable ap pre ts c post b w,
  map clause_test pre = map Some ts -> all_pass ev (fun v => v = Fals) ts b w ->
  let w1 := after ev ts b w in
  let run cs := cond_evalfn ev applicable ap cs b w in
  run pre = (Void, w1) /\
  (forall fs, c = Else fs -> run (pre ++ c :: post) = begin_evalfn ev fs b w1) /\
  (c = NoClause -> run (pre ++ c :: post) = (Err, w1)) /\
  (forall t v w2, clause_test c = Some t -> ev t b w1 = (v, w2) ->
     (~ fine v -> run (pre ++ c :: post) = (v, w2)) /\
     (fine v -> v <> Fals ->
        (forall fs, c = Test t fs -> run (pre ++ c :: post) = begin_evalfn ev fs b w2) /\
        (forall f fn w3, c = Arrow t f -> ev f b w2 = (fn, w3) ->
           run (pre ++ c :: post) =
             if aborted fn then (fn, w3) else if applicable fn then ap fn v w3 else (Err, w3)) /\
        (c = NoArrow t -> run (pre ++ c :: post) = (Err, w2)))).
Proof.
  intros form W ev applicable ap pre ts c post b. revert ts.
  induction pre as [|x pre IH]; intros ts w M A w1 run.
  - destruct ts; [|discriminate]. cbn in w1. subst w1. unfold run. cbn [app].
    refine (conj eq_refl (conj _ (conj _ _))).
    + intros fs ->. reflexivity.
    + intros ->. reflexivity.
    + intros t v w2 CT E. split.
      * intros NF. assert (AB : aborted v = true).
        { destruct (aborted v) eqn:Q; [reflexivity|]. elim NF. now apply fine_spec. }
        destruct c; cbn in CT; inversion CT; subst; cbn; rewrite E, AB; reflexivity.
      * intros FV NFL. apply fine_spec in FV.
        assert (IF : is_fals v = false) by (destruct v; try reflexivity; congruence).
        repeat split.
        -- intros fs ->. cbn. now rewrite E, FV, IF.
        -- intros f fn w3 -> EF. cbn. now rewrite E, FV, IF, EF.
        -- intros ->. cbn. now rewrite E, FV, IF.
  - destruct ts as [|t ts]; [discriminate|]. cbn [map] in M. inversion M as [[M1 M2]].
    apply all_pass_cons in A. destruct A as [A1 A2].
    assert (ST : forall rest, run (x :: rest) = cond_evalfn ev applicable ap rest b (snd (ev t b w))).
    { intros rest. unfold run. destruct x; cbn in M1; inversion M1; subst; cbn;
        destruct (ev t b w) as [v w2]; cbn in A1; subst v; reflexivity. }
    specialize (IH ts (snd (ev t b w)) M2 A2). cbn zeta in IH.
    cbn [app]. rewrite !ST. 
    assert (W1 : w1 = after ev ts b (snd (ev t b w))) by reflexivity. rewrite W1. exact IH.
Qed.
Print Assumptions C128_cond.

Example C128_cond_case : cond_evalfn cev (fun _ => false) (fun _ v w => (v, w))
  [Test (Do 1 Fals) [Do 2 Tru]; Test (Do 3 Empty) [Do 4 (Int 1); Do 5 (Int 2)]; Else [Do 6 Tru]] [] []
  = (Int 2, [1; 3; 4; 5]).
Proof. reflexivity. Qed.

(** IF, WHEN and UNLESS evaluate the test and then, by its value, one branch or
    all clauses as BEGIN does, or nothing more. *)
Theorem C128_if : forall form W (ev : form -> binds -> W -> val * W) test b w t w1,
  ev test b w = (t, w1) ->
  (~ fine t -> (forall thn els, if_evalfn ev test thn els b w = (t, w1)) /\
     (forall fs, when_evalfn ev test fs b w = (t, w1) /\ unless_evalfn ev test fs b w = (t, w1))) /\
  (t = Fals -> (forall thn, if_evalfn ev test thn None b w = (Void, w1)) /\
     (forall thn e, if_evalfn ev test thn (Some e) b w = ev e b w1) /\
     (forall fs, when_evalfn ev test fs b w = (Void, w1) /\
                 unless_evalfn ev test fs b w = begin_evalfn ev fs b w1)) /\
  (t = Empty -> (forall thn els, if_evalfn ev test thn els b w = (Empty, w1)) /\
     (forall fs, when_evalfn ev test fs b w = (Void, w1) /\ unless_evalfn ev test fs b w = (Void, w1))) /\
  (fine t -> t <> Fals -> t <> Empty -> (forall thn els, if_evalfn ev test thn els b w = ev thn b w1) /\
     (forall fs, when_evalfn ev test fs b w = begin_evalfn ev fs b w1 /\
                 unless_evalfn ev test fs b w = (Void, w1))).
Proof.
  intros form W ev test b w t w1 E.
  unfold if_evalfn, when_evalfn, unless_evalfn, begin_evalfn. rewrite E. unfold fine.
  refine (conj _ (conj _ (conj _ _))).
  - intros NF. destruct t; try (elim NF; split; discriminate); repeat split.
  - intros ->. repeat split.
  - intros ->. repeat split.
  - intros [F1 F2] N1 N2. destruct t; try congruence; repeat split.
Qed.
Print Assumptions C128_if.

Example C128_if_case :
  if_evalfn cev (Do 1 Fals) (Do 2 Tru) (Some (Do 3 (Int 4))) [] [] = (Int 4, [1; 3]) /\
  unless_evalfn cev (Do 1 Fals) [Do 2 Tru; Do 3 (Int 4)] [] [] = (Int 4, [1; 2; 3]).
Proof. split; reflexivity. Qed.

(** CASE evaluates the key and then, as BEGIN, only the forms of the first clause
    which lists it or is the else clause; void if there is none. *)
Theorem C128_case : forall form W (ev : form -> binds -> W -> val * W) same key pre c post b w kv w1,
  ev key b w = (kv, w1) ->
  (forall p, In p pre -> exists ks fs, p = Keys ks fs /\ forall k, In k ks -> same kv k = false) ->
  let run cs := case_evalfn ev same key cs b w in
  (~ fine kv -> run (pre ++ c :: post) = (kv, w1)) /\
  (fine kv -> run pre = (Void, w1) /\
     (forall fs, c = KElse fs -> run (pre ++ c :: post) = begin_evalfn ev fs b w1) /\
     (c = NoKeys -> run (pre ++ c :: post) = (Err, w1)) /\
     (forall ks fs k, c = Keys ks fs -> In k ks -> same kv k = true ->
        run (pre ++ c :: post) = begin_evalfn ev fs b w1)).
Proof.
  intros form W ev same key pre c post b w kv w1 E NP run.
  assert (SK : forall rest, case_loop ev same kv (pre ++ rest) b w1 = case_loop ev same kv rest b w1).
  { intros rest. revert NP. clear. induction pre as [|p pre IH]; intros NP; [reflexivity|].
    destruct (NP p (or_introl eq_refl)) as (ks & fs & -> & NK). cbn [app case_loop].
    replace (existsb (same kv) ks) with false.
    - apply IH. intros q IQ. apply NP. now right.
    - symmetry. destruct (existsb (same kv) ks) eqn:Q; [|reflexivity].
      apply existsb_exists in Q. destruct Q as (k & IK & Q). now rewrite (NK k IK) in Q. }
  split.
  - intros NF. unfold run, case_evalfn. rewrite E.
    destruct (aborted kv) eqn:Q; [reflexivity|]. elim NF. now apply fine_spec.
  - intros FV. apply fine_spec in FV.
    assert (R : forall rest, run (pre ++ rest) = case_loop ev same kv rest b w1).
    { intros rest. unfold run, case_evalfn. rewrite E, FV. apply SK. }
    refine (conj _ (conj _ (conj _ _))).
    + rewrite <- (app_nil_r pre). apply R.
    + intros fs ->. apply R.
    + intros ->. apply R.
    + intros ks fs k -> IK S1. rewrite R. cbn.
      replace (existsb (same kv) ks) with true; [reflexivity|].
      symmetry. apply existsb_exists. now exists k.
Qed.
Print Assumptions C128_case.

Example C128_case_case :
  let same a b := match a, b with Int x, Int y => Z.eqb x y | _, _ => false end in
  case_evalfn cev same (Do 1 (Int 5)) [Keys [Int 3; Int 4] [Do 2 Tru]; Keys [Int 5] [Do 3 Tru; Do 4 Fals]; KElse [Do 5 Tru]] [] []
  = (Fals, [1; 3; 4]).
Proof. reflexivity. Qed.

(** ONBREAK is BEGIN, but if that ends with #break it evaluates its first form
    and returns the value. *)
Theorem C128_onbreak : forall form W (ev : form -> binds -> W -> val * W) brk fs b w v w1,
  begin_evalfn ev fs b w = (v, w1) ->
  (v = Brk -> onbreak_evalfn ev brk fs b w = ev brk b w1) /\
  (v <> Brk -> onbreak_evalfn ev brk fs b w = (v, w1)).
Proof.
  intros form W ev brk fs b w v w1 E. unfold onbreak_evalfn. unfold begin_evalfn in E. rewrite E.
  split; [intros ->; reflexivity|]. intros H. destruct v; try reflexivity; congruence.
Qed.
Print Assumptions C128_onbreak.

Example C128_onbreak_case : onbreak_evalfn cev (Do 9 (Int 3)) [Do 1 Tru; Do 2 Brk; Do 3 Tru] [] [] = (Int 3, [1; 2; 9]).
Proof. reflexivity. Qed.

(** WHILE ends, and with which value and state, exactly as said: after rounds of
    a true test and a body which does not abort, either the test is #f or {} or
    #break (void), or void or an error (an error), or a form of the body aborts
    (void for #break, else the error). Otherwise it does not end. *)
Theorem C128_while : forall form W (ev : form -> binds -> W -> val * W) test fs b w r,
  (exists n, while_evalfn ev n test fs b w = Some r) <-> loop_ends ev truthy test fs b w r.
Proof.
  intros form W ev test fs b w r.
  rewrite <- (tl_spec form W ev while_goes truthy).
  - split; intros [n E]; exists n; [rewrite <- while_tl|rewrite while_tl]; exact E.
  - intros v. unfold truthy, fine. destruct v; cbn; split; intros H; try reflexivity; try discriminate;
      try (decompose [and] H; congruence); repeat split; discriminate.
Qed.
Print Assumptions C128_while.

(** UNTIL likewise, going on while its test is #f. *)
Theorem C128_until : forall form W (ev : form -> binds -> W -> val * W) test fs b w r,
  (exists n, until_evalfn ev n test fs b w = Some r) <-> loop_ends ev (fun v => v = Fals) test fs b w r.
Proof.
  intros form W ev test fs b w r.
  rewrite <- (tl_spec form W ev is_fals (fun v => v = Fals)).
  - split; intros [n E]; exists n; [rewrite <- until_tl|rewrite until_tl]; exact E.
  - intros v. destruct v; cbn; split; intros H; congruence.
Qed.
Print Assumptions C128_until.

Example C128_while_case :
  while_evalfn cev 5 (Once 4) [Do 1 Fals] [] [] = Some (Void, [4; 1; 4; 1; 4]) /\
  until_evalfn cev 5 (Do 1 Fals) [Do 2 Tru; Do 3 Brk] [] [] = Some (Void, [1; 2; 3]).
Proof. split; reflexivity. Qed.

(** DOTIMES with a limit below 2^31 runs its body for 0, 1, 2, ... up to the
    limit or to the first round which aborts; it returns void, or the error. *)
Theorem C128_dotimes : forall form W (ev : form -> binds -> W -> val * W) var z fs w,
  (0 <= z < 2147483648)%Z ->
  let r i := begin_evalfn ev fs [(var, Int (Z.of_nat i))] in
  exists n,
    (rounds_done r fine (Z.to_nat z) n w /\
       dotimes_evalfn ev var (Int z) fs w = (Void, after_rounds r n w)) \/
    (rounds_stop r fine (Z.to_nat z) n w /\
       dotimes_evalfn ev var (Int z) fs w = (loop_value (round_value r n w), after_rounds r (S n) w)).
Proof.
  intros form W ev var z fs w L r.
  assert (X : dotimes_evalfn ev var (Int z) fs w =
    let (o, w1) := gl not_aborted (Z.to_nat z) r w in
    (match o with None => Void | Some v => loop_value v end, w1)).
  { unfold dotimes_evalfn. cbn [aborted].
    replace (uintp z) with true by (unfold uintp; symmetry; apply andb_true_intro; split; apply Z.leb_le; lia).
    replace (to_int z) with z by (unfold to_int; destruct (Z.ltb_spec z 2147483648); lia).
    rewrite dotimes_gl. reflexivity. }
  destruct (gl_case W not_aborted fine fine_go (Z.to_nat z) r w) as (n & [[A B]|[A B]]); exists n.
  - left. split; [exact A|]. rewrite X, B. reflexivity.
  - right. split; [exact A|]. rewrite X, B. reflexivity.
Qed.
Print Assumptions C128_dotimes.

Example C128_dotimes_case : dotimes_evalfn cev 1 (Int 3) [Ref 7] [] = (Void, [7; 7; 7]).
Proof. reflexivity. Qed.

(** DOSEQ and DOLIST run their bodies for the elements of the sequence in
    order, with the element, its number and the sequence bound, up to the first
    round which aborts; they return void, or the error. *)
Theorem C128_doseq : forall form W (ev : form -> binds -> W -> val * W) var cv wv sv es fs w,
  seq_elts sv = Some es -> cv <> None \/ wv = None ->
  let r i := begin_evalfn ev fs (round_binds var cv wv sv (nth i es Void) i) in
  exists n,
    (rounds_done r fine (length es) n w /\
       doseq_evalfn ev var cv wv sv fs w = (Void, after_rounds r n w)) \/
    (rounds_stop r fine (length es) n w /\
       doseq_evalfn ev var cv wv sv fs w = (loop_value (round_value r n w), after_rounds r (S n) w)).
Proof.
  intros form W ev var cv wv sv es fs w SE ON r.
  assert (X : doseq_evalfn ev var cv wv sv fs w =
    let (o, w1) := gl not_aborted (length es) r w in
    (match o with None => Void | Some v => loop_value v end, w1)).
  { unfold doseq_evalfn. rewrite SE.
    replace (aborted sv) with false by (destruct sv; try reflexivity; discriminate).
    replace (is_empty sv) with false by (destruct sv; try reflexivity; discriminate).
    rewrite doseq_gl. rewrite (gl_ext W not_aborted (length es) _ r); [reflexivity|].
    intros i x. unfold over, r, round_binds, iter_binds, begin_evalfn. f_equal.
    destruct cv, wv; try reflexivity. destruct ON; congruence. }
  destruct (gl_case W not_aborted fine fine_go (length es) r w) as (n & [[A B]|[A B]]); exists n.
  - left. split; [exact A|]. rewrite X, B. reflexivity.
  - right. split; [exact A|]. rewrite X, B. reflexivity.
Qed.
Print Assumptions C128_doseq.

(** On lists DOLIST is DOSEQ. *)
Theorem C128_dolist : forall form W (ev : form -> binds -> W -> val * W) var cv wv sv fs w,
  (sv = Nil \/ exists a d, sv = Pair a d) ->
  dolist_evalfn ev var cv wv sv fs w = doseq_evalfn ev var cv wv sv fs w.
Proof.
  intros form W ev var cv wv sv fs w [-> |(a & d & ->)]; [reflexivity|].
  unfold dolist_evalfn, doseq_evalfn. cbn [aborted is_empty seq_elts]. apply dolist_gl.
Qed.
Print Assumptions C128_dolist.

Example C128_doseq_case :
  doseq_evalfn cev 1 (Some 2) (Some 3) (Vec [Tru; Brk; Tru]) [Ref 7; Do 8 Fals] [] = (Void, [7; 8; 7]) /\
  dolist_evalfn cev 1 None None (Pair Tru (Pair (Int 3) Nil)) [Ref 7] [] = (Void, [7; 7]).
Proof. split; reflexivity. Qed.

(** FORSEQ runs its body so too; it returns a sequence like the given one of the
    values of the rounds before the end or the #break, or the error. *)
Theorem C128_forseq : forall form W (ev : form -> binds -> W -> val * W) var cv wv sv es fs w,
  seq_elts sv = Some es -> es <> [] -> cv <> None \/ wv = None ->
  let r i := begin_evalfn ev fs (round_binds var cv wv sv (nth i es Void) i) in
  exists n,
    ((rounds_done r fine (length es) n w /\
       forseq_evalfn ev var cv wv sv fs w =
         (makeseq sv (map (fun i => round_value r i w) (seq 0 n)), after_rounds r n w)) \/
     (rounds_stop r fine (length es) n w /\
       forseq_evalfn ev var cv wv sv fs w =
         (if is_brk (round_value r n w) then makeseq sv (map (fun i => round_value r i w) (seq 0 n))
          else round_value r n w, after_rounds r (S n) w))).
Proof.
  intros form W ev var cv wv sv es fs w SE NE ON r.
  set (o := over form W ev es 0%Z (iter_binds var cv wv sv) fs).
  assert (EX : forall i x, o i x = r i x).
  { intros i x. unfold o, over, r, round_binds, iter_binds, begin_evalfn. f_equal.
    destruct cv, wv; try reflexivity. destruct ON; congruence. }
  assert (X : forseq_evalfn ev var cv wv sv fs w =
    match forseq_loop ev es 0 (iter_binds var cv wv sv) fs [] w with
    | (Some v, _, w1) => (v, w1)
    | (None, rs, w1) => (makeseq sv rs, w1)
    end).
  { unfold forseq_evalfn. rewrite SE.
    replace (aborted sv) with false by (destruct sv; try reflexivity; discriminate).
    replace (is_empty sv) with false by (destruct sv; try reflexivity; discriminate).
    destruct es; [congruence|reflexivity]. }
  assert (VE : forall n, map (fun i => round_value r i w) (seq 0 n) = values W o n w).
  { intros n. symmetry. apply (values_ext W o r n w EX). }
  assert (RV : forall n, round_value r n w = round_value o n w).
  { intros n. unfold round_value. now rewrite EX, (after_ext W o r n w EX). }
  destruct (gl_case W not_aborted fine fine_go (length es) r w) as (n & [[A B]|[A B]]); exists n.
  - left. split; [exact A|]. rewrite X, forseq_gl. fold o.
    rewrite (gl_ext W not_aborted (length es) o r w EX), B. cbn [rev app].
    destruct A as [-> _]. now rewrite VE.
  - right. split; [exact A|].
    assert (A' : rounds_stop o fine (length es) n w).
    { destruct A as (A1 & A2 & A3). refine (conj A1 (conj _ _)).
      - intros i LI. rewrite <- RV. auto.
      - rewrite <- RV. exact A3. }
    rewrite X, forseq_gl. fold o.
    rewrite (gl_ext W not_aborted (length es) o r w EX), B. cbn [rev app].
    rewrite (forseq_stop form W ev es 0%Z _ fs n w A'). fold o. rewrite <- VE.
    destruct A as (_ & _ & NF). 
    destruct (round_value r n w) eqn:Q; try reflexivity; elim NF; split; discriminate.
Qed.
Print Assumptions C128_forseq.

Example C128_forseq_case :
  forseq_evalfn cev 1 (Some 2) None (Str [65; 66]%Z) [Ref 7] [] = (Str [65; 66]%Z, [7; 7]) /\
  forseq_evalfn cev 1 (Some 2) None (Vec [Tru; Brk; Tru]) [Ref 7] [] = (Vec [Tru], [7; 7]).
Proof. split; reflexivity. Qed.

(** TRYIF with a test which is not true evaluates nothing more: {} for #f and {},
    an error for void, and what aborts. *)
Theorem C128_tryif_not : forall form W (ev : form -> binds -> W -> val * W) test fs b w t w1,
  ev test b w = (t, w1) -> ~ truthy t ->
  tryif_evalfn ev test fs b w = (match t with Fals | Empty => Empty | Void => Err | _ => t end, w1).
Proof.
  intros form W ev test fs b w t w1 E NT. unfold tryif_evalfn, testeval. rewrite E.
  destruct t; try reflexivity; elim NT; unfold truthy, fine; repeat split; discriminate.
Qed.
Print Assumptions C128_tryif_not.

(** PROG1 whose first form aborts, loops over {}, over what is no sequence and
    over a value which aborts, and DOTIMES without a count evaluate nothing
    more. *)
Theorem C128_nothing : forall form W (ev : form -> binds -> W -> val * W) var cv wv fs b w,
  (forall f v w1, ev f b w = (v, w1) -> ~ fine v -> prog1_evalfn ev f fs b w = (v, w1)) /\
  (forall sv, ~ fine sv ->
     dotimes_evalfn ev var sv fs w = (sv, w) /\ doseq_evalfn ev var cv wv sv fs w = (sv, w) /\
     dolist_evalfn ev var cv wv sv fs w = (sv, w) /\ forseq_evalfn ev var cv wv sv fs w = (sv, w) /\
     tryseq_evalfn ev var cv wv sv fs w = (sv, w)) /\
  (doseq_evalfn ev var cv wv Empty fs w = (Void, w) /\ dolist_evalfn ev var cv wv Empty fs w = (Void, w) /\
   forseq_evalfn ev var cv wv Empty fs w = (Empty, w) /\ tryseq_evalfn ev var cv wv Empty fs w = (Empty, w)) /\
  (forall sv, fine sv -> sv <> Empty -> seq_elts sv = None ->
     doseq_evalfn ev var cv wv sv fs w = (Err, w) /\ dolist_evalfn ev var cv wv sv fs w = (Err, w) /\
     forseq_evalfn ev var cv wv sv fs w = (Err, w) /\ tryseq_evalfn ev var cv wv sv fs w = (Err, w)) /\
  (forall sv, fine sv -> (forall z, sv = Int z -> (z < 0 \/ 4294967295 < z)%Z) ->
     dotimes_evalfn ev var sv fs w = (Err, w)) /\
  (forall sv, seq_elts sv = Some [] -> forseq_evalfn ev var cv wv sv fs w = (sv, w)).
Proof.
  intros form W ev var cv wv fs b w.
  assert (AB : forall v, ~ fine v -> aborted v = true).
  { intros v NF. destruct (aborted v) eqn:Q; [reflexivity|]. elim NF. now apply fine_spec. }
  refine (conj _ (conj _ (conj _ (conj _ (conj _ _))))).
  - intros f v w1 E NF. unfold prog1_evalfn. now rewrite E, (AB v NF).
  - intros sv NF. unfold dotimes_evalfn, doseq_evalfn, dolist_evalfn, forseq_evalfn, tryseq_evalfn.
    rewrite (AB sv NF). repeat split.
  - repeat split.
  - intros sv [F1 F2] NE SE. destruct sv; try discriminate; try congruence; repeat split.
  - intros sv [F1 F2] NI. destruct sv; try congruence; try reflexivity.
    unfold dotimes_evalfn. cbn [aborted]. specialize (NI z eq_refl).
    replace (uintp z) with false; [reflexivity|]. unfold uintp. symmetry. apply andb_false_iff.
    destruct NI; [left; apply Z.leb_gt; lia|right; apply Z.leb_gt; lia].
  - intros sv SE. destruct sv; try discriminate; try reflexivity; unfold forseq_evalfn;
      cbn [aborted is_empty]; rewrite SE; reflexivity.
Qed.
Print Assumptions C128_nothing.

Example C128_nothing_case :
  tryif_evalfn cev (Do 1 Fals) [Do 2 Tru] [] [] = (Empty, [1]) /\
  prog1_evalfn cev (Do 1 Err) [Do 2 Tru] [] [] = (Err, [1]) /\
  dotimes_evalfn cev 1 (Int (-1)) [Do 2 Tru] [] = (Err, []).
Proof. repeat split. Qed.

(** The sequence FORSEQ makes is of the kind of the given one and has the values
    as its elements: any for vectors and lists, characters for strings, bytes for
    packets; and an error if a value is no character and no number. *)
Theorem C128_forseq_kind :
  (forall l0 l, makeseq (Vec l0) l = Vec l) /\
  (forall a d l, seq_elts (makeseq (Pair a d) l) = Some l /\
     (makeseq (Pair a d) l = Nil \/ exists a1 d1, makeseq (Pair a d) l = Pair a1 d1)) /\
  (forall s l, makeseq (Str s) (map Chr l) = Str l) /\
  (forall s l, (forall z, In z l -> (0 <= z < 256)%Z) ->
     makeseq (Packet s) (map Int l) = Packet l /\ makeseq (Secret s) (map Int l) = Secret l) /\
  (forall s l v, In v l -> (forall c, v <> Chr c) -> (forall z, v <> Int z) ->
     makeseq (Str s) l = Err /\ makeseq (Packet s) l = Err /\ makeseq (Secret s) l = Err).
Proof.
  refine (conj _ (conj _ (conj _ (conj _ _)))).
  - reflexivity.
  - intros a d l. cbn [makeseq]. split.
    + assert (X : cars (fold_right Pair Nil l) = l) by (induction l; cbn; congruence).
      destruct l as [|x l]; [reflexivity|]. cbn [fold_right seq_elts]. f_equal. exact X.
    + destruct l; [now left|]. right. cbn. eauto.
  - intros s l. cbn [makeseq]. replace (map_opt str_elt (map Chr l)) with (Some l); [reflexivity|].
    induction l as [|x l IH]; [reflexivity|]. cbn. now rewrite <- IH.
  - intros s l B. cbn [makeseq].
    assert (X : map_opt byte_elt (map Int l) = Some l).
    { induction l as [|x l IH]; [reflexivity|].
      assert (XB := B x (or_introl eq_refl)). cbn [map map_opt].
      rewrite IH by (intros z IZ; apply B; now right).
      unfold byte_elt. replace (uintp x) with true.
      - rewrite Z.mod_small by lia. reflexivity.
      - symmetry. unfold uintp. apply andb_true_intro. split; apply Z.leb_le; lia. }
    now rewrite X.
  - intros s l v IV NC NI.
    assert (X : forall f : val -> option Z, f v = None -> map_opt f l = None).
    { intros f FN. induction l as [|x l IH]; [elim IV|]. cbn. destruct IV as [-> |IV].
      - now rewrite FN.
      - rewrite (IH IV). now destruct (f x). }
    cbn [makeseq].
    rewrite (X str_elt), (X byte_elt); [repeat split| |]; destruct v; try reflexivity;
      solve [elim (NC c); reflexivity|elim (NI z); reflexivity].
Qed.
Print Assumptions C128_forseq_kind.

(** TRYSEQ runs its body as long as its value is {}, and returns the first other
    value, {} for #break and if there is none. *)
Theorem C128_tryseq : forall form W (ev : form -> binds -> W -> val * W) var cv wv sv es fs w,
  seq_elts sv = Some es -> cv <> None \/ wv = None ->
  let r i := begin_evalfn ev fs (round_binds var cv wv sv (nth i es Void) i) in
  exists n,
    (rounds_done r (fun v => v = Empty) (length es) n w /\
       tryseq_evalfn ev var cv wv sv fs w = (Empty, after_rounds r n w)) \/
    (rounds_stop r (fun v => v = Empty) (length es) n w /\
       tryseq_evalfn ev var cv wv sv fs w =
         (match round_value r n w with Brk => Empty | v => v end, after_rounds r (S n) w)).
Proof.
  intros form W ev var cv wv sv es fs w SE ON r.
  assert (X : tryseq_evalfn ev var cv wv sv fs w =
    let (o, w1) := gl try_go (length es) r w in
    (match o with None => Empty | Some Brk => Empty | Some v => v end, w1)).
  { unfold tryseq_evalfn. rewrite SE.
    replace (aborted sv) with false by (destruct sv; try reflexivity; discriminate).
    replace (is_empty sv) with false by (destruct sv; try reflexivity; discriminate).
    rewrite tryseq_gl. rewrite (gl_ext W try_go (length es) _ r); [reflexivity|].
    intros i x. unfold over, r, round_binds, iter_binds, begin_evalfn. f_equal.
    destruct cv, wv; try reflexivity. destruct ON; congruence. }
  assert (G : forall v, v = Empty <-> try_go v = true).
  { intros v. destruct v; cbn; split; intros H; congruence. }
  destruct (gl_case W try_go (fun v => v = Empty) G (length es) r w) as (n & [[A B]|[A B]]); exists n.
  - left. split; [exact A|]. rewrite X, B. reflexivity.
  - right. split; [exact A|]. rewrite X, B. destruct (round_value r n w); reflexivity.
Qed.
Print Assumptions C128_tryseq.

Example C128_tryseq_case :
  tryseq_evalfn cev 1 (Some 2) None (Vec [Empty; Int 4; Tru]) [Ref 7] [] = (Int 4, [7; 7]).
Proof. reflexivity. Qed.

(** DOITER ends exactly if, after rounds with elements of the iterator which do
    not abort, the iterator is at its end (void) or a round aborts (void for
    #break, else the error). *)
Theorem C128_doiter : forall form W (ev : form -> binds -> W -> val * W) (next : W -> val * W) var cv wv it fs w res,
  cv <> None \/ wv = None ->
  let r i (x : W) := let (e, w1) := next x in begin_evalfn ev fs (round_binds var cv wv it e i) w1 in
  (exists n, doiter_loop ev n next 0 (iter_binds var cv wv it) fs w = Some res) <-> iter_ends next r w res.
Proof.
  intros form W ev next var cv wv it fs w res ON r.
  rewrite (doiter_spec form W ev next (iter_binds var cv wv it) fs 0%Z w res).
  assert (E : forall i x, iter_one form W ev next (iter_binds var cv wv it) fs 0%Z i x = r i x).
  { intros i x. unfold iter_one, r, round_binds, iter_binds, begin_evalfn. destruct (next x) as [e w1].
    f_equal. destruct cv, wv; try reflexivity. destruct ON; congruence. }
  assert (G : forall r1 r2 : nat -> W -> val * W, (forall i x, r1 i x = r2 i x) ->
            iter_ends next r1 w res -> iter_ends next r2 w res).
  { intros r1 r2 E12 (k & A & B). pose proof (rounds_ext W r1 r2 E12) as X. exists k. split.
    - intros i L. destruct (X i w) as [X1 X2]. rewrite <- X1, <- X2. auto.
    - destruct (X k w) as [X1 X2]. destruct (X (S k) w) as [Y1 _]. rewrite <- X1, <- X2, <- Y1. exact B. }
  split; apply G; intros i x; [|symmetry]; apply E.
Qed.
Print Assumptions C128_doiter.

Example C128_doiter_case :
  let next (w : list nat) := (if length w <? 3 then Tru else Eod, w ++ [9]) in
  doiter_loop cev 5 next 0 (iter_binds 1 (Some 2) None Nil) [Ref 7] [] = Some (Void, [9; 7; 9; 7; 9]).
Proof. reflexivity. Qed.

(** * C129 *)

(** A loop as documented binds nothing for a counter switched off: not so if the
    name of the whole is given. *)
Theorem C129_counter_off_refuted :
  exists var wv whole elt i, iter_binds var None (Some wv) whole elt i =
    [(var, elt); (hashmark, Int i); (wv, whole)].
Proof. exists 1, 2, Nil, Tru, 0%Z. reflexivity. Qed.
Print Assumptions C129_counter_off_refuted.

(** (dotimes (i 2147483648) ...) runs no round and returns void, although limits
    up to 4294967295 are accepted. *)
Theorem C129_dotimes_refuted :
  exists z, uintp z = true /\ (0 < z)%Z /\
    dotimes_evalfn cev 1 (Int z) [Do 7 Tru] [] = (Void, []).
Proof. exists 2147483648%Z. repeat split. Qed.
Print Assumptions C129_dotimes_refuted.

(** BEGIN passes #break on, although it is said to return void then. *)
Theorem C129_begin_refuted : exists fs, begin_evalfn cev fs [] [] = (Brk, [1; 2]) /\ length fs = 3.
Proof. exists [Do 1 Tru; Do 2 Brk; Do 3 Tru]. split; reflexivity. Qed.
Print Assumptions C129_begin_refuted.

(** PROG1 passes #break on and loses the saved value; its own test for #break is
    never met. *)
Theorem C129_prog1_refuted : exists f fs, cev f [] [] = (Int 5, [1]) /\
  prog1_evalfn cev f fs [] [] = (Brk, [1; 2]).
Proof. exists (Do 1 (Int 5)), [Do 2 Brk; Do 3 Tru]. split; reflexivity. Qed.
Print Assumptions C129_prog1_refuted.

(** OR goes on after a clause which returns {}, although it is said to return it
    at once. *)
Theorem C129_or_refuted : exists f g, cev f [] [] = (Empty, [1]) /\
  or_evalfn cev [f; g] [] [] = (Tru, [1; 2]).
Proof. exists (Do 1 Empty), (Do 2 Tru). split; reflexivity. Qed.
Print Assumptions C129_or_refuted.

(** IF returns {} when its test does, although it is said to return void; and
    WHEN returns the value of its last clause instead of void. *)
Theorem C129_if_when_refuted :
  if_evalfn cev (Do 1 Empty) (Do 2 Tru) (Some (Do 3 Tru)) [] [] = (Empty, [1]) /\
  when_evalfn cev (Do 1 Tru) [Do 2 (Int 5)] [] [] = (Int 5, [1; 2]).
Proof. split; reflexivity. Qed.
Print Assumptions C129_if_when_refuted.

(** DOITER does not notice that the iterator fails: with one which always fails,
    it runs its body for ever with the error as the element. *)
Theorem C129_doiter_refuted :
  let next (w : list nat) := (Err, w) in
  forall n i w, doiter_loop cev n next i (iter_binds 1 None None Nil) [Do 7 Tru] w = None.
Proof.
  intros next. induction n; intros i w; [reflexivity|]. cbn. apply IHn.
Qed.
Print Assumptions C129_doiter_refuted.

(** DOSEQ over a secret packet runs its body with errors as elements. *)
Theorem C129_secret_refuted :
  exists sv, doseq_evalfn cev 1 None None sv [Do 7 Tru] [] = (Void, [7; 7]) /\
    seq_elts sv = Some [Err; Err].
Proof. exists (Secret [1; 2]%Z). split; reflexivity. Qed.
Print Assumptions C129_secret_refuted.

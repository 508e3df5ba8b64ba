(* C130, C131: loops over choices, EXISTS and FORALL *)

From Coq Require Import List ZArith Bool Lia.
Import ListNotations.
From Verif Require Import ControlModel ControlSpec ControlProofs ControlProps ChoiceCtlModel ChoiceCtlProofs.
Open Scope nat_scope.

(* For the cases: choices are vectors. *)
Definition vmem (v : val) : list val := match v with Vec l => l | x => [x] end.

(** * C130 *)

(** DO-CHOICES runs its body for the elements of the choice up to the first round
    which aborts; it returns the value of the last round, void for #break, or
    the error. *)
Theorem C130_dochoices : forall form W (ev : form -> binds -> W -> val * W) members var cv wv cs fs w,
  fine cs -> cs <> Empty -> cv <> None \/ wv = None ->
  let es := members cs in
  let r i := begin_evalfn ev fs (round_binds var cv wv cs (nth i es Void) i) in
  exists n,
    (rounds_done r fine (length es) n w /\
       dochoices_evalfn ev members var cv wv cs fs w =
         (match n with O => Void | S k => round_value r k w end, after_rounds r n w)) \/
    (rounds_stop r fine (length es) n w /\
       dochoices_evalfn ev members var cv wv cs fs w = (loop_value (round_value r n w), after_rounds r (S n) w)).
Proof.
  intros form W ev members var cv wv cs fs w FC NE ON es r. apply fine_spec in FC.
  set (o := over form W ev es 0%Z (iter_binds var cv wv cs) fs).
  assert (EX : forall i x, o i x = r i x).
  { intros i x. unfold o, over, r, round_binds, iter_binds, begin_evalfn. f_equal.
    destruct cv, wv; try reflexivity. destruct ON; congruence. }
  assert (X : dochoices_evalfn ev members var cv wv cs fs w =
    let (q, w1) := gl not_aborted (length es) r w in
    (match q with None => last (values W r (length es) w) Void | Some v => loop_value v end, w1)).
  { unfold dochoices_evalfn. rewrite FC.
    replace (is_empty cs) with false by (destruct cs; try reflexivity; congruence).
    fold es. rewrite dochoices_gl. fold o.
    now rewrite (gl_ext W not_aborted (length es) o r w EX), (values_ext W o r (length es) w EX). }
  destruct (gl_case W not_aborted fine fine_go (length es) r w) as (n & [[A B]|[A B]]); exists n.
  - left. split; [exact A|]. rewrite X, B. destruct A as [-> _]. f_equal.
    destruct (length es) as [|k]; [reflexivity|]. unfold values. rewrite seq_S, map_app. cbn [map].
    apply last_last.
  - right. split; [exact A|]. now rewrite X, B.
Qed.
Print Assumptions C130_dochoices.

(** TRY-CHOICES runs it as long as its value is {}, and returns the first other
    value, {} for #break and if there is none. *)
Theorem C130_trychoices : forall form W (ev : form -> binds -> W -> val * W) members var cv wv cs fs w,
  fine cs -> cs <> Empty -> cv <> None \/ wv = None ->
  let es := members cs in
  let r i := begin_evalfn ev fs (round_binds var cv wv cs (nth i es Void) i) in
  exists n,
    (rounds_done r (fun v => v = Empty) (length es) n w /\
       trychoices_evalfn ev members var cv wv cs fs w = (Empty, after_rounds r n w)) \/
    (rounds_stop r (fun v => v = Empty) (length es) n w /\
       trychoices_evalfn ev members var cv wv cs fs w =
         (match round_value r n w with Brk => Empty | v => v end, after_rounds r (S n) w)).
Proof.
  intros form W ev members var cv wv cs fs w FC NE ON es r. apply fine_spec in FC.
  assert (X : trychoices_evalfn ev members var cv wv cs fs w =
    let (o, w1) := gl try_go (length es) r w in
    (match o with None => Empty | Some Brk => Empty | Some v => v end, w1)).
  { unfold trychoices_evalfn. rewrite FC.
    replace (is_empty cs) with false by (destruct cs; try reflexivity; congruence).
    fold es. rewrite trychoices_ts, tryseq_gl. rewrite (gl_ext W try_go (length es) _ r); [reflexivity|].
    intros i x. unfold over, r, round_binds, iter_binds, begin_evalfn. f_equal.
    destruct cv, wv; try reflexivity. destruct ON; congruence. }
  assert (G : forall v, v = Empty <-> try_go v = true).
  { intros v. destruct v; cbn; split; intros H; congruence. }
  destruct (gl_case W try_go (fun v => v = Empty) G (length es) r w) as (n & [[A B]|[A B]]); exists n.
  - left. split; [exact A|]. rewrite X, B. reflexivity.
  - right. split; [exact A|]. rewrite X, B. destruct (round_value r n w); reflexivity.
Qed.
Print Assumptions C130_trychoices.

(** FOR-CHOICES collects the elements of the values of the rounds before the end
    or the #break, and FILTER-CHOICES the elements whose rounds gave neither #f
    nor {}; both return the error if a round fails. *)
Theorem C130_forchoices : forall form W (ev : form -> binds -> W -> val * W) members var cv wv cs fs w,
  fine cs -> cs <> Empty -> cv <> None \/ wv = None ->
  let es := members cs in
  let r i := begin_evalfn ev fs (round_binds var cv wv cs (nth i es Void) i) in
  let forc := forchoices_evalfn ev members var cv wv cs fs w in
  let filt := filterchoices_evalfn ev members var cv wv cs fs w in
  exists n,
    n <= length es /\ (forall i, i < n -> fine (round_value r i w)) /\
    (n = length es \/ ~ fine (round_value r n w)) /\
    let w1 := after_rounds r (if n =? length es then n else S n) w in
    ((n < length es /\ round_value r n w <> Brk /\
        forc = (One (round_value r n w), w1) /\ filt = (One (round_value r n w), w1)) \/
     ((n = length es \/ round_value r n w = Brk) /\
      exists l1 l2, forc = (Collected l1, w1) /\ filt = (Collected l2, w1) /\
        (forall x, In x l1 <-> exists i, i < n /\ round_value r i w <> Empty /\ In x (members (round_value r i w))) /\
        (forall x, In x l2 <-> exists i, i < n /\ round_value r i w <> Empty /\ round_value r i w <> Fals /\ nth i es Void = x))).
Proof.
  intros form W ev members var cv wv cs fs w FC NE ON es r forc filt. apply fine_spec in FC.
  assert (IE : is_empty cs = false) by (destruct cs; try reflexivity; congruence).
  assert (EX : forall i x, over form W ev es 0%Z (iter_binds var cv wv cs) fs i x = r i x).
  { intros i x. unfold over, r, round_binds, iter_binds, begin_evalfn. f_equal.
    destruct cv, wv; try reflexivity. destruct ON; congruence. }
  assert (L1 : forall n x, In x (flat_map (add1 members) (map (fun i => round_value r i w) (seq 0 n))) <->
            exists i, i < n /\ round_value r i w <> Empty /\ In x (members (round_value r i w))).
  { intros n x. rewrite in_flat_map. split.
    - intros (v & IV & IX). apply in_map_iff in IV. destruct IV as (i & <- & IS). apply in_seq in IS.
      exists i. split; [lia|]. unfold add1 in IX. destruct (is_empty (round_value r i w)) eqn:Q; [elim IX|].
      split; [|exact IX]. intros C. rewrite C in Q. discriminate.
    - intros (i & LI & NEI & IX). exists (round_value r i w). split.
      + apply in_map_iff. exists i. split; [reflexivity|]. apply in_seq. lia.
      + unfold add1. destruct (round_value r i w); try exact IX. congruence. }
  assert (L2 : forall n x, n <= length es ->
            In x (map fst (filter (fun p => keeps (snd p)) (combine es (map (fun i => round_value r i w) (seq 0 n))))) <->
            exists i, i < n /\ round_value r i w <> Empty /\ round_value r i w <> Fals /\ nth i es Void = x).
  { intros n x LN.
    assert (CB : forall p, In p (combine es (map (fun i => round_value r i w) (seq 0 n))) <->
              exists i, i < n /\ p = (nth i es Void, round_value r i w)).
    { intros p.
      assert (LM : length (map (fun i => round_value r i w) (seq 0 n)) = n) by now rewrite map_length, seq_length.
      assert (NT : forall i, i < n -> nth i (combine es (map (fun i => round_value r i w) (seq 0 n))) (Void, round_value r 0 w) =
                (nth i es Void, round_value r i w)).
      { intros i LI. revert LN LI. generalize (Void, round_value r 0 w) as dd. intros dd.
        change (round_value r i w) with ((fun i => round_value r i w) i).
        generalize (fun i => round_value r i w) as g. clear. intros g.
        assert (X : forall k n es i, n <= length es -> i < n ->
          nth i (combine es (map g (seq k n))) dd = (nth i es Void, g (k + i))).
        { intros k n1. revert k. induction n1 as [|n1 IH]; intros k l j LN LI; [lia|].
          destruct l as [|e l]; cbn in LN; [lia|]. cbn [seq map combine]. destruct j as [|j]; cbn [nth].
          - now rewrite Nat.add_0_r.
          - rewrite IH by lia. f_equal. f_equal. lia. }
        intros LN LI. now rewrite X. }
      assert (LC : length (combine es (map (fun i => round_value r i w) (seq 0 n))) = n)
        by (rewrite combine_length, LM; lia).
      split.
      - intros IP. destruct (In_nth _ _ (Void, round_value r 0 w) IP) as (i & LI & E). rewrite LC in LI.
        exists i. split; [exact LI|]. rewrite <- E. now apply NT.
      - intros (i & LI & ->). rewrite <- (NT i LI). apply nth_In. now rewrite LC. }
    rewrite in_map_iff. split.
    - intros ([a v] & <- & IP). apply filter_In in IP. destruct IP as [IP K]. apply CB in IP.
      destruct IP as (i & LI & E). inversion E; subst. exists i. split; [exact LI|]. cbn in K.
      unfold keeps in K. destruct (round_value r i w); try discriminate; repeat split; discriminate.
    - intros (i & LI & N1 & N2 & <-). exists (nth i es Void, round_value r i w). split; [reflexivity|].
      apply filter_In. split; [apply CB; exists i; split; [exact LI|reflexivity]|]. cbn.
      destruct (round_value r i w); try reflexivity; congruence. }
  destruct (forseq_case form W ev es (iter_binds var cv wv cs) fs w r EX) as (n & [[A B]|[A B]]); exists n.
  - destruct A as [LN A]. split; [lia|]. split; [exact A|]. split; [now left|].
    rewrite LN, Nat.eqb_refl, <- LN. right. split; [now left|].
    eexists; eexists. split; [|split; [|split; [apply L1|intros x; apply L2; lia]]].
    + unfold forc, forchoices_evalfn. rewrite FC, IE. fold es. rewrite forchoices_fs, B. reflexivity.
    + unfold filt, filterchoices_evalfn. rewrite FC, IE. fold es. rewrite filterchoices_fs, B. reflexivity.
  - destruct A as (LN & A & NF). split; [lia|]. split; [exact A|]. split; [now right|].
    destruct (Nat.eqb_spec n (length es)) as [Q|_]; [lia|].
    assert (E1 : forc = let '(o, rs, w1) := forseq_loop ev es 0 (iter_binds var cv wv cs) fs [] w in
       (match o with None => Collected ([] ++ flat_map (add1 members) rs) | Some v => One v end, w1)).
    { unfold forc, forchoices_evalfn. rewrite FC, IE. fold es. apply forchoices_fs. }
    assert (E2 : filt = let '(o, rs, w1) := forseq_loop ev es 0 (iter_binds var cv wv cs) fs [] w in
       (match o with
        | None => Collected ([] ++ map fst (filter (fun p => keeps (snd p)) (combine es rs)))
        | Some v => One v end, w1)).
    { unfold filt, filterchoices_evalfn. rewrite FC, IE. fold es. apply filterchoices_fs. }
    rewrite B in E1, E2.
    destruct (is_brk (round_value r n w)) eqn:K.
    + right. split; [right; destruct (round_value r n w); try discriminate; reflexivity|].
      eexists; eexists. split; [exact E1|split; [exact E2|split; [apply L1|intros x; apply L2; lia]]].
    + left. split; [exact LN|]. split; [intros C; rewrite C in K; discriminate|]. split; assumption.
Qed.
Print Assumptions C130_forchoices.

Example C130_loops_case :
  dochoices_evalfn cev vmem 1 (Some 2) None (Vec [Int 1; Int 2]) [Ref 7] [] = (Int 2, [7; 7]) /\
  trychoices_evalfn cev vmem 1 (Some 2) None (Vec [Empty; Int 2; Int 3]) [Ref 7] [] = (Int 2, [7; 7]) /\
  forchoices_evalfn cev vmem 1 (Some 2) None (Vec [Int 1; Empty; Int 2; Brk; Int 3]) [Ref 7] [] = (Collected [Int 1; Int 2], [7; 7; 7; 7]) /\
  filterchoices_evalfn cev vmem 1 (Some 2) None (Vec [Int 1; Fals; Int 2]) [Ref 7] [] = (Collected [Int 1; Int 2], [7; 7; 7]).
Proof. repeat split. Qed.

(** TRY evaluates its clauses up to the first whose value is not {} and returns
    it, or an error if it is void; {} if there is none. *)
Theorem C130_try : forall form W (ev : form -> binds -> W -> val * W) fs b w,
  let P v := v = Empty in
  (all_pass ev P fs b w /\ try_evalfn ev fs b w = (Empty, after ev fs b w)) \/
  (exists pre f, first_not ev P fs pre f b w /\
     try_evalfn ev fs b w =
       (match value_after ev pre f b w with Void => Err | v => v end, after ev (pre ++ [f]) b w)).
Proof.
  intros form W ev fs b w P.
  assert (D : forall v, {P v} + {~ P v}).
  { intros v. unfold P. destruct v; try (left; reflexivity); right; discriminate. }
  destruct (last_spec form W ev (fun fs v w => try_loop ev fs v b w) P
              (fun x => match x with Void => Err | v => v end) b) as [A B].
  - reflexivity.
  - intros f gs v x Q. cbn. destruct (ev f b x) as [u x1]. cbn in Q. unfold P in Q. now subst u.
  - intros f gs v x Q. cbn. destruct (ev f b x) as [u x1]. cbn in Q. unfold P in Q.
    destruct u; try reflexivity; congruence.
  - destruct (pass_or_not form W ev P D fs b w) as [Q|(pre & f & Q)].
    + left. split; [exact Q|]. unfold try_evalfn. destruct fs as [|x fs]; [reflexivity|].
      destruct (exists_last (l := x :: fs) ltac:(discriminate)) as (pre & f & EF). rewrite EF in *.
      rewrite (A pre f Empty w Q). f_equal. exact (Q pre f [] eq_refl).
    + right. exists pre, f. split; [exact Q|]. unfold try_evalfn. rewrite (B fs pre f Empty w Q).
      destruct (value_after ev pre f b w); reflexivity.
Qed.
Print Assumptions C130_try.

Example C130_try_case : try_evalfn cev [Do 1 Empty; Do 2 (Int 4); Do 3 Tru] [] [] = (Int 4, [1; 2]).
Proof. reflexivity. Qed.

(** DO-SUBSETS cuts the choice into blocks, which in order are the choice, and
    runs its body for all; if no round aborts it ends and returns void. *)
Theorem C130_dosubsets : forall form W (ev : form -> binds -> W -> val * W) mk var cv es bs fs w,
  es <> [] -> 0 < bs ->
  let part i := firstn bs (skipn (i * bs) es) in
  let r i := begin_evalfn ev fs ((var, mk (part i)) :: match cv with Some c => [(c, Int (Z.of_nat i))] | None => [] end) in
  exists nb, concat (map part (seq 0 nb)) = es /\
    (forall i, i < nb -> part i <> [] /\ (S i < nb -> length (part i) = bs)) /\
    ((forall i, i < nb -> fine (round_value r i w)) ->
       dosubsets_evalfn ev mk (nb + 1) var cv es bs fs w = Some (Void, after_rounds r nb w)).
Proof.
  intros form W ev mk var cv es bs fs w NE B part r.
  exists (n_blocks (length es) bs).
  assert (LP : 0 < length es) by (destruct es; [congruence|cbn; lia]).
  destruct (n_blocks_bounds (length es) bs B LP) as (B1 & B2 & B3).
  split; [|split].
  - change part with (block es bs). rewrite blocks_prefix. apply firstn_all2. exact B2.
  - intros i LI.
    assert (LEN : length (part i) = Nat.min bs (length es - i * bs))
      by (unfold part; rewrite firstn_length, skipn_length; reflexivity).
    split.
    + intros C. rewrite C in LEN. cbn in LEN. nia.
    + intros LS. rewrite LEN. nia.
  - intros A. unfold dosubsets_evalfn. destruct es as [|e es]; [congruence|].
    exact (sub_done form W ev mk (e :: es) bs _ var cv fs w A).
Qed.
Print Assumptions C130_dosubsets.

Example C130_dosubsets_case :
  dosubsets_evalfn cev Vec 9 1 None [Int 1; Int 2; Int 3] 2 [Ref 7] [] = Some (Void, [7; 7]) /\
  map (block [Int 1; Int 2; Int 3] 2) [0; 1] = [[Int 1; Int 2]; [Int 3]].
Proof. split; reflexivity. Qed.

(** The calls EXISTS and FORALL may make are those of each function with each
    choice of the arguments, once for each occurrence. *)
Theorem C130_calls : forall fns args f c,
  In (f, c) (all_calls fns args) <->
  In f fns /\ Forall2 (fun a v => match a with Only x => v = x | Any vs => In v vs | Nothing => False end) args c.
Proof.
  intros fns args f c. unfold all_calls. rewrite in_flat_map.
  assert (CB : In c (combos args) <->
    Forall2 (fun a v => match a with Only x => v = x | Any vs => In v vs | Nothing => False end) args c).
  { revert c. induction args as [|a args IH]; intros c.
    - cbn. split; [intros [<-|[]]; constructor|]. intros H. inversion H. now left.
    - destruct a as [v|vs|]; cbn [combos].
      + rewrite in_map_iff. split.
        * intros (d & <- & ID). constructor; [reflexivity|now apply IH].
        * intros H. inversion H as [|? y ? d E F]; subst. exists d. split; [reflexivity|now apply IH].
      + rewrite in_flat_map. split.
        * intros (v & IV & IM). apply in_map_iff in IM. destruct IM as (d & <- & ID).
          constructor; [exact IV|now apply IH].
        * intros H. inversion H as [|? y ? d E F]; subst. exists y. split; [exact E|].
          apply in_map_iff. exists d. split; [reflexivity|now apply IH].
      + split; [intros []|]. intros H. inversion H as [|? y ? d E F]; subst. elim E. }
  split.
  - intros (g & IG & IC). unfold calls1 in IC. apply in_map_iff in IC. destruct IC as (d & E & ID).
    inversion E; subst. split; [exact IG|now apply CB].
  - intros [IG F]. exists f. split; [exact IG|]. unfold calls1. apply in_map_iff. exists c.
    split; [reflexivity|now apply CB].
Qed.
Print Assumptions C130_calls.

(** EXISTS makes these calls in order up to the first whose value is neither #f
    nor {}; it returns #t, or an error if that call fails; #f if there is none. *)
Theorem C130_exists : forall W applicable (ap : val -> list val -> W -> val * W) fns args w,
  (forall f, In f fns -> applicable f = true) ->
  let P v := v = Fals \/ v = Empty in
  (all_pass (call W ap) P (all_calls fns args) [] w /\
     exists_helper applicable ap false fns args w = (Fals, after (call W ap) (all_calls fns args) [] w)) \/
  (exists pre c, first_not (call W ap) P (all_calls fns args) pre c [] w /\
     (fine (value_after (call W ap) pre c [] w) ->
        exists_helper applicable ap false fns args w = (Tru, after (call W ap) (pre ++ [c]) [] w)) /\
     (~ fine (value_after (call W ap) pre c [] w) ->
        exists_helper applicable ap false fns args w = (Err, after (call W ap) (pre ++ [c]) [] w))).
Proof.
  intros W applicable ap fns args w AP P. apply forallb_forall in AP.
  assert (G : forall v, P v <-> goE v = true).
  { intros v. unfold P. destruct v; cbn; split; intros H; try discriminate; try tauto; destruct H; discriminate. }
  assert (X : exists_helper applicable ap false fns args w =
    let (o, w1) := scan W ap goE (all_calls fns args) w in
    (match o with None => Fals | Some v => if aborted v then Err else Tru end, w1)).
  { unfold exists_helper. destruct (existsb is_nothing args) eqn:NN.
    - rewrite orb_true_r, (all_calls_nothing fns args NN). reflexivity.
    - destruct fns as [|f fns]; [reflexivity|]. cbn [orb]. rewrite AP. apply exists_fns_scan. exact NN. }
  destruct (scan_case W ap goE P G (all_calls fns args) w) as [[A B]|(pre & c & A & B)].
  - left. split; [exact A|]. now rewrite X, B.
  - right. exists pre, c. split; [exact A|]. rewrite X, B. split.
    + intros F. apply fine_spec in F. now rewrite F.
    + intros NF. destruct (aborted _) eqn:Q; [reflexivity|]. elim NF. now apply fine_spec.
Qed.
Print Assumptions C130_exists.

(** FORALL makes them up to the first whose value is #f or {}, returning #f, or
    fails, returning an error; #t if there is none. *)
Theorem C130_forall : forall W applicable (ap : val -> list val -> W -> val * W) fns args w,
  (forall f, In f fns -> applicable f = true) ->
  let P v := fine v /\ v <> Fals /\ v <> Empty in
  (all_pass (call W ap) P (all_calls fns args) [] w /\
     forall_helper applicable ap false fns args w = (Tru, after (call W ap) (all_calls fns args) [] w)) \/
  (exists pre c, first_not (call W ap) P (all_calls fns args) pre c [] w /\
     (fine (value_after (call W ap) pre c [] w) ->
        forall_helper applicable ap false fns args w = (Fals, after (call W ap) (pre ++ [c]) [] w)) /\
     (~ fine (value_after (call W ap) pre c [] w) ->
        forall_helper applicable ap false fns args w = (Err, after (call W ap) (pre ++ [c]) [] w))).
Proof.
  intros W applicable ap fns args w AP P. apply forallb_forall in AP.
  assert (G : forall v, P v <-> goF v = true).
  { intros v. unfold P, fine. destruct v; cbn; split; intros H; try discriminate;
      try (decompose [and] H; congruence); repeat split; discriminate. }
  assert (X : forall_helper applicable ap false fns args w =
    let (o, w1) := scan W ap goF (all_calls fns args) w in
    (match o with None => Tru | Some v => if aborted v then Err else Fals end, w1)).
  { unfold forall_helper. destruct (existsb is_nothing args) eqn:NN.
    - rewrite orb_true_r, (all_calls_nothing fns args NN). reflexivity.
    - destruct fns as [|f fns]; [reflexivity|]. cbn [orb]. rewrite AP. apply forall_fns_scan. exact NN. }
  destruct (scan_case W ap goF P G (all_calls fns args) w) as [[A B]|(pre & c & A & B)].
  - left. split; [exact A|]. now rewrite X, B.
  - right. exists pre, c. split; [exact A|]. rewrite X, B. split.
    + intros F. apply fine_spec in F. now rewrite F.
    + intros NF. destruct (aborted _) eqn:Q; [reflexivity|]. elim NF. now apply fine_spec.
Qed.
Print Assumptions C130_forall.

(** FORALL/SKIPERRS passes over calls which fail; so does EXISTS/SKIPERRS if one
    of its arguments is a choice. *)
Theorem C130_skiperrs : forall W applicable (ap : val -> list val -> W -> val * W) fns args w,
  (forall f, In f fns -> applicable f = true) ->
  let P v := v <> Fals /\ v <> Empty in
  let Q v := v = Fals \/ v = Empty \/ ~ fine v in
  let cs := all_calls fns args in
  ((all_pass (call W ap) P cs [] w /\
      forall_helper applicable ap true fns args w = (Tru, after (call W ap) cs [] w)) \/
   (exists pre c, first_not (call W ap) P cs pre c [] w /\
      forall_helper applicable ap true fns args w = (Fals, after (call W ap) (pre ++ [c]) [] w))) /\
  ((exists vs, In (Any vs) args) ->
   (all_pass (call W ap) Q cs [] w /\
      exists_helper applicable ap true fns args w = (Fals, after (call W ap) cs [] w)) \/
   (exists pre c, first_not (call W ap) Q cs pre c [] w /\
      exists_helper applicable ap true fns args w = (Tru, after (call W ap) (pre ++ [c]) [] w))).
Proof.
  intros W applicable ap fns args w AP P Q cs. apply forallb_forall in AP.
  assert (G : forall v, P v <-> goFS v = true).
  { intros v. unfold P. destruct v; cbn; split; intros H; try discriminate;
      try (decompose [and] H; congruence); repeat split; discriminate. }
  assert (G2 : forall v, Q v <-> goES v = true).
  { intros v. unfold Q, fine. destruct v; cbn; split; intros H; try discriminate; try tauto;
      destruct H as [H|[H|H]]; try discriminate; elim H; split; discriminate. }
  split.
  - assert (X : forall_helper applicable ap true fns args w =
      let (o, w1) := scan W ap goFS cs w in (match o with None => Tru | Some _ => Fals end, w1)).
    { unfold forall_helper, cs. destruct (existsb is_nothing args) eqn:NN.
      - rewrite orb_true_r, (all_calls_nothing fns args NN). reflexivity.
      - destruct fns as [|f fns]; [reflexivity|]. cbn [orb]. rewrite AP. apply forall_fns_skip. exact NN. }
    destruct (scan_case W ap goFS P G cs w) as [[A B]|(pre & c & A & B)].
    + left. split; [exact A|]. now rewrite X, B.
    + right. exists pre, c. split; [exact A|]. now rewrite X, B.
  - intros (vs & IA).
    assert (X : exists_helper applicable ap true fns args w =
      let (o, w1) := scan W ap goES cs w in (match o with None => Fals | Some _ => Tru end, w1)).
    { unfold exists_helper, cs. destruct (existsb is_nothing args) eqn:NN.
      - rewrite orb_true_r, (all_calls_nothing fns args NN). reflexivity.
      - destruct fns as [|f fns]; [reflexivity|]. cbn [orb]. rewrite AP. apply exists_fns_skip; [exact NN|].
        apply existsb_exists. exists (Any vs). split; [exact IA|reflexivity]. }
    destruct (scan_case W ap goES Q G2 cs w) as [[A B]|(pre & c & A & B)].
    + left. split; [exact A|]. now rewrite X, B.
    + right. exists pre, c. split; [exact A|]. now rewrite X, B.
Qed.
Print Assumptions C130_skiperrs.

(* Calls are counted; a call with 3 first fails, one with 5 first succeeds. *)
Definition cap (f : val) (l : list val) (w : nat) : val * nat :=
  (match l with Int 3 :: _ => Err | Int 5 :: _ => Tru | _ => Fals end, S w).

Example C130_exists_case :
  exists_helper (fun _ => true) cap false [Obj 0] [Any [Int 1; Int 5; Int 3]; Any [Int 8; Int 9]] 0 = (Tru, 3) /\
  exists_helper (fun _ => true) cap true [Obj 0] [Any [Int 1; Int 3; Int 5]] 0 = (Tru, 3) /\
  forall_helper (fun _ => true) cap true [Obj 0] [Any [Int 3; Int 5]] 0 = (Tru, 2).
Proof. repeat split. Qed.

(** Over {} the loops return void or {} and run nothing; over a value which aborts
    they return it; EXISTS and FORALL without calls to make are #f and #t, and
    with what is no function an error, before any call. *)
Theorem C130_nothing : forall form W (ev : form -> binds -> W -> val * W) members var cv wv fs w
    applicable (ap : val -> list val -> W -> val * W) skip fns args,
  (dochoices_evalfn ev members var cv wv Empty fs w = (Void, w) /\
   trychoices_evalfn ev members var cv wv Empty fs w = (Empty, w) /\
   forchoices_evalfn ev members var cv wv Empty fs w = (Collected [], w) /\
   filterchoices_evalfn ev members var cv wv Empty fs w = (Collected [], w)) /\
  (forall cs, ~ fine cs ->
     dochoices_evalfn ev members var cv wv cs fs w = (cs, w) /\
     trychoices_evalfn ev members var cv wv cs fs w = (cs, w) /\
     forchoices_evalfn ev members var cv wv cs fs w = (One cs, w) /\
     filterchoices_evalfn ev members var cv wv cs fs w = (One cs, w)) /\
  (fns = [] \/ In Nothing args ->
     exists_helper applicable ap skip fns args w = (Fals, w) /\
     forall_helper applicable ap skip fns args w = (Tru, w)) /\
  (~ In Nothing args -> (exists f, In f fns /\ applicable f = false) ->
     exists_helper applicable ap skip fns args w = (Err, w) /\
     forall_helper applicable ap skip fns args w = (Err, w)).
Proof.
  intros form W ev members var cv wv fs w applicable ap skip fns args.
  refine (conj _ (conj _ (conj _ _))).
  - repeat split.
  - intros cs NF.
    assert (AB : aborted cs = true).
    { destruct (aborted cs) eqn:Q; [reflexivity|]. elim NF. now apply fine_spec. }
    unfold dochoices_evalfn, trychoices_evalfn, forchoices_evalfn, filterchoices_evalfn. rewrite AB. repeat split.
  - unfold exists_helper, forall_helper. intros [-> |IN]; [split; reflexivity|].
    replace (existsb is_nothing args) with true.
    + rewrite orb_true_r. split; reflexivity.
    + symmetry. apply existsb_exists. exists Nothing. split; [exact IN|reflexivity].
  - intros NN (f & IF & NA). unfold exists_helper, forall_helper.
    replace (existsb is_nothing args) with false.
    + destruct fns as [|g fns]; [elim IF|]. cbn [orb].
      replace (forallb applicable (g :: fns)) with false; [split; reflexivity|].
      symmetry. destruct (forallb applicable (g :: fns)) eqn:Q; [|reflexivity].
      rewrite forallb_forall in Q. rewrite (Q f IF) in NA. discriminate.
    + symmetry. destruct (existsb is_nothing args) eqn:Q; [|reflexivity].
      apply existsb_exists in Q. destruct Q as (a & IA & Q). destruct a; try discriminate. now elim NN.
Qed.
Print Assumptions C130_nothing.

Example C130_nothing_case :
  exists_helper (fun v => match v with Obj 0 => true | _ => false end) cap true [Obj 0; Obj 1] [Only (Int 5)] 0 = (Err, 0) /\
  forall_helper (fun _ => true) cap true [Obj 0] [Only (Int 5); Nothing] 0 = (Tru, 0).
Proof. split; reflexivity. Qed.

(** * C131 *)

(** DO-CHOICES returns the value of its last round, although it is said to return
    void. *)
Theorem C131_dochoices_refuted : exists cs fs,
  dochoices_evalfn cev vmem 1 (Some 2) None cs fs [] = (Int 5, [7]) /\ cs = Int 3.
Proof. exists (Int 3), [Do 7 (Int 5)]. split; reflexivity. Qed.
Print Assumptions C131_dochoices_refuted.

(** DO-SUBSETS does not end if a round returns #break or fails, whatever the
    forms do: it runs the same block again for ever. *)
Theorem C131_dosubsets_refuted :
  (forall form W (ev : form -> binds -> W -> val * W) mk var cv es bs fs w n,
     let r i := begin_evalfn ev fs (subset_binds var cv (mk (block es bs i)) i) in
     rounds_stop r fine (n_blocks (length es) bs) n w -> es <> [] ->
     forall k, dosubsets_evalfn ev mk k var cv es bs fs w = None) /\
  exists es fs, forall k, dosubsets_evalfn cev Vec k 1 None es 1 fs [] = None.
Proof.
  assert (X : forall form W (ev : form -> binds -> W -> val * W) mk var cv es bs fs w n,
     let r i := begin_evalfn ev fs (subset_binds var cv (mk (block es bs i)) i) in
     rounds_stop r fine (n_blocks (length es) bs) n w -> es <> [] ->
     forall k, dosubsets_evalfn ev mk k var cv es bs fs w = None).
  { intros form W ev mk var cv es bs fs w n r RS NE k. unfold dosubsets_evalfn.
    destruct es as [|e es]; [congruence|]. now apply (sub_stop form W ev mk _ bs _ var cv fs n). }
  split; [exact X|]. exists [Int 1; Int 2], [Do 7 Brk]. intros k.
  apply (X cform (list nat) cev Vec 1 None [Int 1; Int 2] 1 [Do 7 Brk] [] 0); [|discriminate].
  refine (conj _ (conj _ _)); [cbn; lia|intros i L; lia|]. intros [F _]. now apply F.
Qed.
Print Assumptions C131_dosubsets_refuted.

(** EXISTS/SKIPERRS returns the error if its arguments are no choices, and does
    not try the other functions. *)
Theorem C131_skiperrs_refuted : exists fns args,
  exists_helper (fun _ => true) cap true fns args 0 = (Err, 1) /\ length fns = 2.
Proof. exists [Obj 0; Obj 1], [Only (Int 3)]. split; reflexivity. Qed.
Print Assumptions C131_skiperrs_refuted.

(** PICK-N copies a negative number of elements if the offset is beyond the end,
    and reads before the choice if the offset is 2^31 or more. *)
Theorem C131_pickn_refuted :
  (exists n k o, (0 < k < n)%Z /\ (0 <= o)%Z /\ pickn n k (Some o) 0 = Fault) /\
  (exists n k o s, (0 < k < n)%Z /\ (0 <= o)%Z /\ (s < 0)%Z /\ pickn n k (Some o) 0 = PFrom s k).
Proof.
  split.
  - exists 5%Z, 2%Z, 6%Z. repeat split; lia.
  - exists 5%Z, 2%Z, 2147483648%Z, (-2147483648)%Z. repeat split; lia.
Qed.
Print Assumptions C131_pickn_refuted.

(** With a random offset, which is below n - k, PICK-N of k elements never picks
    the last one. *)
Theorem C131_last_refuted : forall n k rnd, (0 < k < n)%Z -> (0 <= rnd < n - k)%Z ->
  exists s h, pickn n k None rnd = PFrom s h /\ (s + h <= n - 1)%Z.
Proof.
  intros n k rnd K R. exists rnd, k. unfold pickn.
  destruct (Z.eqb_spec k 0); [lia|]. destruct (Z.ltb_spec k 0); [lia|]. destruct (Z.leb_spec n k); [lia|].
  split; [reflexivity|lia].
Qed.
Print Assumptions C131_last_refuted.

Example C131_last_case : pickn 5 2 None 2 = PFrom 2 2.
Proof. reflexivity. Qed.

(** Within the choice, PICK-N takes the k elements from the offset on, or those
    there are. *)
Theorem C131_pickn_partial : forall n k o rnd, (0 < k < n)%Z -> (0 <= o <= n)%Z -> (n < 2147483648)%Z ->
  pickn n k (Some o) rnd = PFrom o (Z.min k (n - o)).
Proof.
  intros n k o rnd K L N31. unfold pickn.
  destruct (Z.eqb_spec k 0); [lia|]. destruct (Z.ltb_spec k 0); [lia|]. destruct (Z.leb_spec n k); [lia|].
  replace (uintp o) with true by (unfold uintp; symmetry; apply andb_true_intro; split; apply Z.leb_le; lia).
  replace (to_int o) with o by (unfold to_int; destruct (Z.ltb_spec o 2147483648); lia).
  cbn zeta. destruct (Z.ltb_spec (n - o) k).
  - rewrite Z.min_r by lia. destruct (Z.ltb_spec (n - o) 0); [lia|reflexivity].
  - rewrite Z.min_l by lia. destruct (Z.ltb_spec k 0); [lia|reflexivity].
Qed.
Print Assumptions C131_pickn_partial.

Example C131_pickn_case : pickn 5 2 (Some 4%Z) 0 = PFrom 4 1.
Proof. reflexivity. Qed.

(** PICK-N of as many elements as there are, or more, is the choice, of none {},
    and of a negative number an error. *)
Theorem C131_count_partial : forall n k o rnd, (0 < n)%Z ->
  ((n <= k)%Z -> pickn n k o rnd = PAll) /\ (k = 0%Z -> pickn n k o rnd = PNone) /\
  ((k < 0)%Z -> pickn n k o rnd = PType).
Proof.
  intros n k o rnd L. unfold pickn. repeat split; intros H.
  - destruct (Z.eqb_spec k 0); [lia|]. destruct (Z.ltb_spec k 0); [lia|]. destruct (Z.leb_spec n k); [reflexivity|lia].
  - now subst.
  - destruct (Z.eqb_spec k 0); [lia|]. destruct (Z.ltb_spec k 0); [reflexivity|lia].
Qed.
Print Assumptions C131_count_partial.

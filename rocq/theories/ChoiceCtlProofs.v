(* Proofs about loops over choices, EXISTS and FORALL *)

From Coq Require Import List ZArith Bool Lia.
Import ListNotations.
From Verif Require Import ControlModel ControlSpec ControlProofs ChoiceCtlModel.
Open Scope nat_scope.

Section Loops.
Variables form W : Type.
Variable ev : form -> binds -> W -> val * W.
Variable members : val -> list val.

Definition add1 (v : val) : list val := if is_empty v then [] else members v.

Lemma choice_add_add1 : forall l v, choice_add members l v = l ++ add1 v.
Proof. intros. unfold choice_add, add1. destruct (is_empty v); [now rewrite app_nil_r|reflexivity]. Qed.

Lemma fs_acc : forall es i bd fs acc w,
  forseq_loop ev es i bd fs acc w =
  let '(o, rs, w1) := forseq_loop ev es i bd fs [] w in (o, rev acc ++ rs, w1).
Proof.
  induction es as [|e es IH]; intros i bd fs acc w; cbn.
  - now rewrite app_nil_r.
  - destruct (eval_body ev fs (bd e i) w) as [v w1]. destruct (aborted v); [now rewrite app_nil_r|].
    rewrite (IH _ _ _ (v :: acc)), (IH _ _ _ [v]).
    destruct (forseq_loop ev es (i + 1) bd fs [] w1) as [[o rs] w2]. cbn. now rewrite <- app_assoc.
Qed.

Lemma forchoices_fs : forall es i bd fs acc w,
  forchoices_loop ev members es i bd fs acc w =
  let '(o, rs, w1) := forseq_loop ev es i bd fs [] w in
  (match o with None => Collected (acc ++ flat_map add1 rs) | Some v => One v end, w1).
Proof.
  induction es as [|e es IH]; intros i bd fs acc w; cbn.
  - now rewrite app_nil_r.
  - destruct (eval_body ev fs (bd e i) w) as [v w1].
    destruct (aborted v) eqn:A.
    + destruct (is_brk v); cbn; now rewrite ?app_nil_r.
    + rewrite IH, (fs_acc es (i + 1)%Z bd fs [v] w1), choice_add_add1.
      destruct (forseq_loop ev es (i + 1) bd fs [] w1) as [[o rs] w2]. cbn [rev app flat_map].
      now rewrite <- app_assoc.
Qed.

Definition keeps (v : val) : bool := negb (is_empty v || is_fals v).

Lemma filterchoices_fs : forall es i bd fs acc w,
  filterchoices_loop ev es i bd fs acc w =
  let '(o, rs, w1) := forseq_loop ev es i bd fs [] w in
  (match o with
   | None => Collected (acc ++ map fst (filter (fun p => keeps (snd p)) (combine es rs)))
   | Some v => One v
   end, w1).
Proof.
  induction es as [|e es IH]; intros i bd fs acc w; cbn.
  - now rewrite app_nil_r.
  - destruct (eval_body ev fs (bd e i) w) as [v w1].
    destruct (aborted v) eqn:A.
    + destruct (is_brk v); cbn; now rewrite ?app_nil_r.
    + rewrite IH, (fs_acc es (i + 1)%Z bd fs [v] w1).
      destruct (forseq_loop ev es (i + 1) bd fs [] w1) as [[o rs] w2].
      cbn [rev app combine filter snd]. unfold keeps at 2.
      destruct o; [reflexivity|]. destruct (is_empty v || is_fals v); cbn [negb map fst]; [reflexivity|].
      now rewrite <- app_assoc.
Qed.

Lemma trychoices_ts : forall es i bd fs w,
  trychoices_loop ev es i bd fs w = tryseq_loop ev es i bd fs w.
Proof.
  induction es as [|e es IH]; intros i bd fs w; cbn; [reflexivity|].
  destruct (eval_body ev fs (bd e i) w) as [v w1]. destruct (aborted v); [reflexivity|].
  destruct (is_empty v); cbn; [apply IH|reflexivity].
Qed.

(* FORSEQ's loop in terms of rounds. *)
Lemma forseq_case : forall es bd fs w (r : nat -> W -> val * W),
  (forall i x, over form W ev es 0%Z bd fs i x = r i x) ->
  exists n,
    (rounds_done r fine (length es) n w /\
       forseq_loop ev es 0 bd fs [] w = (None, map (fun i => round_value r i w) (seq 0 n), after_rounds r n w)) \/
    (rounds_stop r fine (length es) n w /\
       forseq_loop ev es 0 bd fs [] w =
         (if is_brk (round_value r n w) then None else Some (round_value r n w),
          map (fun i => round_value r i w) (seq 0 n), after_rounds r (S n) w)).
Proof.
  intros es bd fs w r EX. set (o := over form W ev es 0%Z bd fs) in *.
  assert (VE : forall n, map (fun i => round_value r i w) (seq 0 n) = values W o n w).
  { intros n. symmetry. apply (values_ext W o r n w EX). }
  assert (RV : forall n, round_value r n w = round_value o n w).
  { intros n. unfold round_value. now rewrite EX, (after_ext W o r n w EX). }
  destruct (gl_case W not_aborted fine fine_go (length es) r w) as (n & [[A B]|[A B]]); exists n.
  - left. split; [exact A|]. rewrite forseq_gl. fold o.
    rewrite (gl_ext W not_aborted (length es) o r w EX), B. cbn [rev app].
    destruct A as [-> _]. now rewrite VE.
  - right. split; [exact A|].
    assert (A' : rounds_stop o fine (length es) n w).
    { destruct A as (A1 & A2 & A3). refine (conj A1 (conj _ _)).
      - intros i LI. rewrite <- RV. auto.
      - rewrite <- RV. exact A3. }
    rewrite forseq_gl. fold o.
    rewrite (gl_ext W not_aborted (length es) o r w EX), B. cbn [rev app].
    rewrite (forseq_stop form W ev es 0%Z bd fs n w A'). fold o. rewrite <- VE.
    destruct A as (_ & _ & NF).
    destruct (round_value r n w) eqn:Q; try reflexivity; elim NF; split; discriminate.
Qed.

Lemma dochoices_gl : forall es i bd fs res w,
  dochoices_loop ev es i bd fs res w =
  let (o, w1) := gl not_aborted (length es) (over form W ev es i bd fs) w in
  (match o with
   | None => last (values W (over form W ev es i bd fs) (length es) w) res
   | Some v => loop_value v
   end, w1).
Proof.
  induction es as [|e es IH]; intros i bd fs res w; [reflexivity|].
  cbn [dochoices_loop gl length]. rewrite over_0.
  rewrite values_shift, over_0.
  destruct (eval_body ev fs (bd e i) w) as [v w1]. unfold not_aborted at 1.
  destruct (aborted v) eqn:A; cbn [negb].
  - destruct v; try discriminate; reflexivity.
  - rewrite IH. cbn [fst snd].
    rewrite (gl_ext W not_aborted (length es) (shift (over form W ev (e :: es) i bd fs)) (over form W ev es (i + 1)%Z bd fs))
      by (intros; apply over_shift).
    rewrite (values_ext W (shift (over form W ev (e :: es) i bd fs)) (over form W ev es (i + 1)%Z bd fs))
      by (intros; apply over_shift).
    destruct (gl not_aborted (length es) (over form W ev es (i + 1)%Z bd fs) w1) as [[o|] w2]; [reflexivity|].
    f_equal. destruct (values W (over form W ev es (i + 1)%Z bd fs) (length es) w1) as [|x l] eqn:V; [reflexivity|].
    change (last (v :: x :: l) res) with (last (x :: l) res).
    clear. revert x. induction l as [|y l IH]; intros x; [reflexivity|].
    change (last (y :: l) v = last (y :: l) res). apply IH.
Qed.

Lemma run_all_body : forall fs b w,
  run_all ev fs b w =
  let (v, w1) := eval_body ev fs b w in (if aborted v then Some v else None, w1).
Proof.
  induction fs as [|f fs IH]; intros b w; [reflexivity|].
  cbn [run_all]. destruct fs as [|g fs].
  - cbn. destruct (ev f b w) as [v w1]. destruct (aborted v); reflexivity.
  - change (eval_body ev (f :: g :: fs) b w) with
      (let (v, w1) := ev f b w in if aborted v then (v, w1) else eval_body ev (g :: fs) b w1).
    destruct (ev f b w) as [v w1]. destruct (aborted v) eqn:A; [now rewrite A|]. apply IH.
Qed.

(* DO-SUBSETS *)
Variable mk : list val -> val.
Section Sub.
Variables (es : list val) (bs nb : nat) (var : sym) (cv : option sym) (fs : list form).
Let r (i : nat) := eval_body ev fs (subset_binds var cv (mk (block es bs i)) i).

Lemma sub_step : forall k i res w, i < nb ->
  dosubsets_loop ev mk (S k) es bs nb i false res var cv fs w =
  let (v, w1) := r i w in
  if aborted v then dosubsets_loop ev mk k es bs nb i true (if is_brk v then res else v) var cv fs w1
  else dosubsets_loop ev mk k es bs nb (S i) false res var cv fs w1.
Proof.
  intros k i res w L. cbn [dosubsets_loop]. apply Nat.ltb_lt in L. rewrite L, run_all_body.
  unfold r. destruct (eval_body ev fs _ w) as [v w1]. destruct (aborted v); reflexivity.
Qed.

Lemma sub_forever : forall k i res w, i < nb -> dosubsets_loop ev mk k es bs nb i true res var cv fs w = None.
Proof.
  induction k as [|k IH]; intros i res w L; [reflexivity|]. cbn [dosubsets_loop].
  pose proof L as L'. apply Nat.ltb_lt in L'. rewrite L'.
  destruct (run_all ev fs _ w) as [[v|] w1]; now apply IH.
Qed.

Lemma sub_run : forall n w, (forall i, i < n -> fine (round_value r i w)) -> n <= nb ->
  forall k res, dosubsets_loop ev mk (n + k) es bs nb 0 false res var cv fs w =
    dosubsets_loop ev mk k es bs nb n false res var cv fs (after_rounds r n w).
Proof.
  induction n as [|n IH]; intros w A L k res; [reflexivity|].
  replace (S n + k) with (n + S k) by lia. rewrite IH by (try lia; intros; apply A; lia).
  rewrite sub_step by lia. specialize (A n ltac:(lia)). apply fine_spec in A.
  unfold round_value in A. cbn [after_rounds]. destruct (r n (after_rounds r n w)) as [v w1].
  cbn in *. now rewrite A.
Qed.

Lemma sub_mono : forall k i fin res w x, dosubsets_loop ev mk k es bs nb i fin res var cv fs w = Some x ->
  forall j, dosubsets_loop ev mk (k + j) es bs nb i fin res var cv fs w = Some x.
Proof.
  induction k as [|k IH]; intros i fin res w x E j; [discriminate|].
  cbn [dosubsets_loop Nat.add] in *. destruct (i <? nb); [|exact E].
  destruct (run_all ev fs _ w) as [o w1]. now apply IH.
Qed.

Lemma sub_done : forall w, (forall i, i < nb -> fine (round_value r i w)) ->
  dosubsets_loop ev mk (nb + 1) es bs nb 0 false Void var cv fs w = Some (Void, after_rounds r nb w).
Proof.
  intros w A. rewrite (sub_run nb w A (le_n _) 1 Void). cbn [dosubsets_loop]. now rewrite Nat.ltb_irrefl.
Qed.

Lemma sub_stop : forall n w, rounds_stop r fine nb n w ->
  forall k, dosubsets_loop ev mk k es bs nb 0 false Void var cv fs w = None.
Proof.
  intros n w (L & A & NF) k.
  destruct (dosubsets_loop ev mk k es bs nb 0 false Void var cv fs w) as [x|] eqn:E; [|reflexivity].
  pose proof (sub_mono _ _ _ _ _ _ E (S n)) as M.
  replace (k + S n) with (n + S k) in M by lia.
  rewrite (sub_run n w A ltac:(lia) (S k) Void), sub_step in M by exact L.
  assert (AB : aborted (round_value r n w) = true).
  { destruct (aborted (round_value r n w)) eqn:Q; [reflexivity|]. elim NF. now apply fine_spec. }
  unfold round_value in AB. destruct (r n (after_rounds r n w)) as [v w1]. cbn in AB. rewrite AB in M.
  rewrite sub_forever in M by exact L. discriminate.
Qed.
End Sub.

End Loops.

(* The blocks of DO-SUBSETS. *)
Lemma n_blocks_bounds : forall n bs, 0 < bs -> 0 < n ->
  (n_blocks n bs - 1) * bs < n /\ n <= n_blocks n bs * bs /\ 0 < n_blocks n bs.
Proof.
  intros n bs B L. unfold n_blocks. pose proof (Nat.div_mod n bs ltac:(lia)) as D.
  pose proof (Nat.mod_upper_bound n bs ltac:(lia)) as M.
  destruct (Nat.eqb_spec (n mod bs) 0) as [E|E].
  - replace (1 + n / bs - 1) with (n / bs) by lia.
    assert (0 < n / bs) by (destruct (n / bs); lia).
    destruct (n / bs) as [|q]; [lia|]. replace (S q - 1) with q by lia. nia.
  - replace (1 + n / bs - 1) with (n / bs) by lia. nia.
Qed.

Lemma blocks_prefix : forall es bs k,
  concat (map (block es bs) (seq 0 k)) = firstn (k * bs) es.
Proof.
  intros es bs k. induction k as [|k IH]; [reflexivity|].
  rewrite seq_S, map_app, concat_app, IH. cbn [map concat plus]. rewrite app_nil_r.
  unfold block. replace (S k * bs) with (k * bs + bs) by lia.
  generalize (k * bs) as a. intros a. clear. revert a. induction es as [|e es IH]; intros a.
  - now rewrite skipn_nil, !firstn_nil.
  - destruct a as [|a]; [reflexivity|]. cbn. now rewrite IH.
Qed.

(* EXISTS and FORALL *)
Section Quant.
Variable W : Type.
Variable ap : val -> list val -> W -> val * W.

Definition call (c : val * list val) (_ : binds) (w : W) : val * W := ap (fst c) (snd c) w.

Fixpoint scan (go : val -> bool) (cs : list (val * list val)) (w : W) : option val * W :=
  match cs with
  | [] => (None, w)
  | c :: t => let (v, w1) := call c [] w in if go v then scan go t w1 else (Some v, w1)
  end.

Lemma scan_app : forall go a b w,
  scan go (a ++ b) w = let (o, w1) := scan go a w in match o with None => scan go b w1 | Some v => (Some v, w1) end.
Proof.
  induction a as [|c a IH]; intros b w; [reflexivity|]. cbn.
  destruct (call c [] w) as [v w1]. destruct (go v); [apply IH|reflexivity].
Qed.

Lemma scan_stops : forall go cs w v w1, scan go cs w = (Some v, w1) -> go v = false.
Proof.
  induction cs as [|c cs IH]; intros w v w1 E; cbn in E; [discriminate|].
  destruct (call c [] w) as [u w2]. destruct (go u) eqn:G; [eapply IH; exact E|]. inversion E; now subst.
Qed.

Lemma scan_case : forall go (P : val -> Prop) (G : forall v, P v <-> go v = true) cs w,
  (all_pass call P cs [] w /\ scan go cs w = (None, after call cs [] w)) \/
  (exists pre c, first_not call P cs pre c [] w /\
     scan go cs w = (Some (value_after call pre c [] w), after call (pre ++ [c]) [] w)).
Proof.
  intros go P G cs w.
  assert (D : forall v, {P v} + {~ P v}).
  { intros v. destruct (go v) eqn:E; [left; now apply G|right; intros H; apply G in H; congruence]. }
  destruct (scan_spec _ W call (option val) (scan go) P (@Some val) []) as [A B].
  - intros f fs x H. apply G in H. cbn. destruct (call f [] x) as [v w1]. cbn in H. now rewrite H.
  - intros f fs x H. cbn. destruct (call f [] x) as [v w1]. cbn in *.
    destruct (go v) eqn:E; [elim H; now apply G|reflexivity].
  - destruct (pass_or_not _ W call P D cs [] w) as [H|(pre & c & H)].
    + left. split; [exact H|]. now rewrite (A cs w H).
    + right. exists pre, c. split; [exact H|]. exact (B cs pre c w H).
Qed.

(* All ways to choose the arguments, the last varying first. *)
Fixpoint combos (args : list arg) : list (list val) :=
  match args with
  | [] => [[]]
  | Only v :: rest => map (cons v) (combos rest)
  | Any vs :: rest => flat_map (fun v => map (cons v) (combos rest)) vs
  | Nothing :: _ => []
  end.

Definition calls1 (f : val) (d : list val) (args : list arg) := map (fun c => (f, d ++ c)) (combos args).

Lemma calls1_cons : forall f d v rest, map (fun c => (f, d ++ c)) (map (cons v) (combos rest)) = calls1 f (d ++ [v]) rest.
Proof.
  intros. unfold calls1. rewrite map_map. apply map_ext. intros c. now rewrite <- app_assoc.
Qed.

Lemma calls1_any : forall f d vs rest,
  calls1 f d (Any vs :: rest) = flat_map (fun v => calls1 f (d ++ [v]) rest) vs.
Proof.
  intros. unfold calls1 at 1. cbn [combos]. induction vs as [|v vs IH]; [reflexivity|].
  cbn [flat_map]. rewrite map_app, IH. f_equal. apply calls1_cons.
Qed.

Definition goE (v : val) := is_fals v || is_empty v.
Definition goES (v : val) := goE v || aborted v.
Definition goF (v : val) := negb (goE v) && negb (aborted v).
Definition goFS (v : val) := negb (goE v).

Lemma test_exists_scan : forall f args d w, existsb is_nothing args = false ->
  test_exists ap false f args d w =
  let (o, w1) := scan goE (calls1 f d args) w in
  (match o with None => No | Some v => if aborted v then Bad else Yes end, w1).
Proof.
  induction args as [|a args IH]; intros d w NN.
  - unfold calls1. cbn. unfold call. cbn. rewrite app_nil_r. destruct (ap f d w) as [v w1].
    unfold goE. destruct (is_fals v || is_empty v); reflexivity.
  - cbn [existsb] in NN. apply orb_false_iff in NN. destruct NN as [N1 N2].
    destruct a as [v|vs|]; [| |discriminate].
    + cbn [test_exists]. rewrite (IH (d ++ [v]) w N2).
      replace (calls1 f d (Only v :: args)) with (calls1 f (d ++ [v]) args)
        by (unfold calls1 at 2; cbn [combos]; now rewrite calls1_cons).
      reflexivity.
    + rewrite calls1_any. cbn [test_exists]. clear N1. revert w. induction vs as [|v vs IV]; intros w; [reflexivity|].
      rewrite (IH (d ++ [v]) w N2). cbn [flat_map]. rewrite scan_app.
      destruct (scan goE (calls1 f (d ++ [v]) args) w) as [[u|] w1]; [|apply IV].
      destruct (aborted u); reflexivity.
Qed.

Definition is_any (a : arg) : bool := match a with Any _ => true | _ => false end.

Lemma test_exists_skip : forall f args d w, existsb is_nothing args = false ->
  let (r, w1) := test_exists ap true f args d w in
  let (o, w2) := scan goES (calls1 f d args) w in
  w1 = w2 /\ (match o with Some _ => r = Yes | None => r <> Yes end) /\
  (existsb is_any args = true -> r <> Bad).
Proof.
  induction args as [|a args IH]; intros d w NN.
  - unfold calls1. cbn. unfold call. cbn. rewrite app_nil_r. destruct (ap f d w) as [v w1].
    unfold goES, goE. destruct (is_fals v || is_empty v); cbn; [repeat split; discriminate|].
    destruct (aborted v); repeat split; discriminate.
  - cbn [existsb] in NN. apply orb_false_iff in NN. destruct NN as [N1 N2].
    destruct a as [v|vs|]; [| |discriminate].
    + cbn [test_exists]. specialize (IH (d ++ [v]) w N2).
      replace (calls1 f d (Only v :: args)) with (calls1 f (d ++ [v]) args)
        by (unfold calls1 at 2; cbn [combos]; now rewrite calls1_cons).
      exact IH.
    + rewrite calls1_any. cbn [test_exists]. clear N1. revert w. induction vs as [|v vs IV]; intros w.
      * cbn. repeat split; discriminate.
      * specialize (IH (d ++ [v]) w N2). cbn [flat_map]. rewrite scan_app.
        destruct (test_exists ap true f args (d ++ [v]) w) as [r w1].
        destruct (scan goES (calls1 f (d ++ [v]) args) w) as [[u|] w2]; destruct IH as (-> & IH & _).
        -- subst r. repeat split; discriminate.
        -- destruct r; [apply IV|congruence|apply IV].
Qed.

Lemma test_forall_scan : forall f args d w, existsb is_nothing args = false ->
  test_forall ap false f args d w =
  let (o, w1) := scan goF (calls1 f d args) w in
  (match o with None => Yes | Some v => if aborted v then Bad else No end, w1).
Proof.
  induction args as [|a args IH]; intros d w NN.
  - unfold calls1. cbn. unfold call. cbn. rewrite app_nil_r. destruct (ap f d w) as [v w1].
    unfold goF, goE. destruct v; reflexivity.
  - cbn [existsb] in NN. apply orb_false_iff in NN. destruct NN as [N1 N2].
    destruct a as [v|vs|]; [| |discriminate].
    + cbn [test_forall]. rewrite (IH (d ++ [v]) w N2).
      replace (calls1 f d (Only v :: args)) with (calls1 f (d ++ [v]) args)
        by (unfold calls1 at 2; cbn [combos]; now rewrite calls1_cons).
      reflexivity.
    + rewrite calls1_any. cbn [test_forall]. clear N1. revert w. induction vs as [|v vs IV]; intros w; [reflexivity|].
      rewrite (IH (d ++ [v]) w N2). cbn [flat_map]. rewrite scan_app.
      destruct (scan goF (calls1 f (d ++ [v]) args) w) as [[u|] w1]; [|apply IV].
      destruct (aborted u); reflexivity.
Qed.

Lemma test_forall_skip : forall f args d w, existsb is_nothing args = false ->
  let (r, w1) := test_forall ap true f args d w in
  let (o, w2) := scan goFS (calls1 f d args) w in
  w1 = w2 /\ (match o with Some _ => r = No | None => r <> No end).
Proof.
  induction args as [|a args IH]; intros d w NN.
  - unfold calls1. cbn. unfold call. cbn. rewrite app_nil_r. destruct (ap f d w) as [v w1].
    unfold goFS, goE. destruct v; cbn; repeat split; discriminate.
  - cbn [existsb] in NN. apply orb_false_iff in NN. destruct NN as [N1 N2].
    destruct a as [v|vs|]; [| |discriminate].
    + cbn [test_forall]. specialize (IH (d ++ [v]) w N2).
      replace (calls1 f d (Only v :: args)) with (calls1 f (d ++ [v]) args)
        by (unfold calls1 at 2; cbn [combos]; now rewrite calls1_cons).
      exact IH.
    + rewrite calls1_any. cbn [test_forall]. clear N1. revert w. induction vs as [|v vs IV]; intros w.
      * cbn. repeat split; discriminate.
      * specialize (IH (d ++ [v]) w N2). cbn [flat_map]. rewrite scan_app.
        destruct (test_forall ap true f args (d ++ [v]) w) as [r w1].
        destruct (scan goFS (calls1 f (d ++ [v]) args) w) as [[u|] w2]; destruct IH as (-> & IH).
        -- subst r. repeat split; discriminate.
        -- destruct r; [congruence|apply IV|apply IV].
Qed.

Definition all_calls (fns : list val) (args : list arg) := flat_map (fun f => calls1 f [] args) fns.

Lemma exists_fns_scan : forall args, existsb is_nothing args = false -> forall fns w,
  exists_fns ap false fns args w =
  let (o, w1) := scan goE (all_calls fns args) w in
  (match o with None => Fals | Some v => if aborted v then Err else Tru end, w1).
Proof.
  intros args NN. induction fns as [|f fns IH]; intros w; [reflexivity|].
  cbn [exists_fns all_calls flat_map]. rewrite (test_exists_scan f args [] w NN), scan_app.
  destruct (scan goE (calls1 f [] args) w) as [[v|] w1]; [|apply IH].
  destruct (aborted v); reflexivity.
Qed.

Lemma exists_fns_skip : forall args, existsb is_nothing args = false -> existsb is_any args = true -> forall fns w,
  exists_fns ap true fns args w =
  let (o, w1) := scan goES (all_calls fns args) w in (match o with None => Fals | Some _ => Tru end, w1).
Proof.
  intros args NN AN. induction fns as [|f fns IH]; intros w; [reflexivity|].
  cbn [exists_fns all_calls flat_map]. rewrite scan_app.
  pose proof (test_exists_skip f args [] w NN) as T.
  destruct (test_exists ap true f args [] w) as [r w1].
  destruct (scan goES (calls1 f [] args) w) as [[v|] w2]; destruct T as (-> & T & B); specialize (B AN).
  - now subst r.
  - destruct r; try congruence. apply IH.
Qed.

Lemma forall_fns_scan : forall args, existsb is_nothing args = false -> forall fns w,
  forall_fns ap false fns args w =
  let (o, w1) := scan goF (all_calls fns args) w in
  (match o with None => Tru | Some v => if aborted v then Err else Fals end, w1).
Proof.
  intros args NN. induction fns as [|f fns IH]; intros w; [reflexivity|].
  cbn [forall_fns all_calls flat_map]. rewrite (test_forall_scan f args [] w NN), scan_app.
  destruct (scan goF (calls1 f [] args) w) as [[v|] w1]; [|apply IH].
  destruct (aborted v); reflexivity.
Qed.

Lemma forall_fns_skip : forall args, existsb is_nothing args = false -> forall fns w,
  forall_fns ap true fns args w =
  let (o, w1) := scan goFS (all_calls fns args) w in (match o with None => Tru | Some _ => Fals end, w1).
Proof.
  intros args NN. induction fns as [|f fns IH]; intros w; [reflexivity|].
  cbn [forall_fns all_calls flat_map]. rewrite scan_app.
  pose proof (test_forall_skip f args [] w NN) as T.
  destruct (test_forall ap true f args [] w) as [r w1].
  destruct (scan goFS (calls1 f [] args) w) as [[v|] w2]; destruct T as (-> & T).
  - now subst r.
  - destruct r; try congruence; apply IH.
Qed.

Lemma combos_nothing : forall args, existsb is_nothing args = true -> combos args = [].
Proof.
  induction args as [|a args IH]; intros E; [discriminate|]. cbn [existsb] in E.
  destruct a as [v|vs|]; cbn [combos]; [| |reflexivity]; cbn [is_nothing orb] in E; rewrite (IH E); [reflexivity|].
  cbn. induction vs; [reflexivity|assumption].
Qed.

Lemma all_calls_nothing : forall fns args, existsb is_nothing args = true -> all_calls fns args = [].
Proof.
  intros fns args E. unfold all_calls, calls1. rewrite (combos_nothing args E).
  induction fns; [reflexivity|assumption].
Qed.
End Quant.

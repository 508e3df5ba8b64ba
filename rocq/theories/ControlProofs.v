(* Lemmas for ControlProps.v *)

From Coq Require Import List ZArith Bool Lia.
Import ListNotations.
From Verif Require Import ControlModel ControlSpec.
Open Scope nat_scope.

Lemma fine_spec : forall v, fine v <-> aborted v = false.
Proof. intros v; unfold fine; destruct v; cbn; intuition congruence. Qed.

Section Proofs.

Variables form W : Type.
Variable ev : form -> binds -> W -> val * W.

Notation after := (after ev). Notation value_after := (value_after ev).
Notation all_pass := (all_pass ev). Notation first_not := (first_not ev).

Lemma after_cons : forall f fs b w, after (f :: fs) b w = after fs b (snd (ev f b w)).
Proof. reflexivity. Qed.

Lemma after_app : forall p q b w, after (p ++ q) b w = after q b (after p b w).
Proof. intros; unfold ControlSpec.after; apply fold_left_app. Qed.

Lemma all_pass_nil : forall P b w, all_pass P [] b w.
Proof. intros P b w p1 f p2 E. destruct p1; discriminate. Qed.

Lemma all_pass_cons : forall P f fs b w,
  all_pass P (f :: fs) b w <-> P (fst (ev f b w)) /\ all_pass P fs b (snd (ev f b w)).
Proof.
  intros P f fs b w; split.
  - intros H. split; [exact (H [] f fs eq_refl)|].
    intros p1 g p2 E. apply (H (f :: p1) g p2). cbn; congruence.
  - intros [H1 H2] p1 g p2 E. destruct p1 as [|x p1]; cbn in E; inversion E; subst; [exact H1|].
    exact (H2 p1 g p2 eq_refl).
Qed.

(* Either all forms pass, or there is a first which does not. *)
Lemma pass_or_not : forall (P : val -> Prop) (D : forall v, {P v} + {~ P v}) fs b w,
  all_pass P fs b w \/ exists pre f, first_not P fs pre f b w.
Proof.
  intros P D. induction fs as [|f fs IH]; intros b w; [left; apply all_pass_nil|].
  destruct (D (fst (ev f b w))) as [Y|N1].
  - destruct (IH b (snd (ev f b w))) as [A|(pre & g & (post & E) & A & NP)].
    + left. apply all_pass_cons; auto.
    + right. exists (f :: pre), g. split; [exists post; cbn; congruence|].
      split; [apply all_pass_cons; auto|exact NP].
  - right. exists [], f. split; [exists fs; reflexivity|]. split; [apply all_pass_nil|exact N1].
Qed.

Definition fine_dec : forall v, {fine v} + {~ fine v}.
Proof.
  intros v. destruct (aborted v) eqn:E.
  - right. intros F. apply fine_spec in F. congruence.
  - left. now apply fine_spec.
Defined.

(* A loop over forms which goes on while [go] holds, to [fin] at the end. *)
Lemma scan_spec : forall (R : Type) (loop : list form -> W -> R * W) (P : val -> Prop)
    (stop : val -> R) b,
  (forall f fs w, P (fst (ev f b w)) -> loop (f :: fs) w = loop fs (snd (ev f b w))) ->
  (forall f fs w, ~ P (fst (ev f b w)) -> loop (f :: fs) w = (stop (fst (ev f b w)), snd (ev f b w))) ->
  (forall fs w, all_pass P fs b w -> loop fs w = (fst (loop [] (after fs b w)), snd (loop [] (after fs b w)))) /\
  (forall fs pre f w, first_not P fs pre f b w ->
     loop fs w = (stop (value_after pre f b w), after (pre ++ [f]) b w)).
Proof.
  intros R loop P stop b GO ST. split.
  - induction fs as [|f fs IH]; intros w A; [cbn; now destruct (loop [] w)|].
    apply all_pass_cons in A. destruct A as [A1 A2]. rewrite GO by exact A1.
    rewrite after_cons. auto.
  - intros fs pre; revert fs. induction pre as [|g pre IH]; intros fs f w ((post & E) & A & NP); subst fs.
    + cbn. rewrite ST by exact NP. reflexivity.
    + apply all_pass_cons in A. destruct A as [A1 A2].
      cbn [app]. rewrite GO by exact A1. rewrite after_cons.
      rewrite (IH (pre ++ f :: post) f (snd (ev g b w))); [reflexivity|].
      split; [exists post; reflexivity|]. split; [exact A2|exact NP].
Qed.

Lemma ev_eta : forall f b w, ev f b w = (fst (ev f b w), snd (ev f b w)).
Proof. intros; now destruct (ev f b w). Qed.

Lemma body_last : forall fs f b w, all_pass fine fs b w ->
  eval_body ev (fs ++ [f]) b w = (value_after fs f b w, after (fs ++ [f]) b w).
Proof.
  induction fs as [|g fs IH]; intros f b w A.
  - cbn. apply ev_eta.
  - apply all_pass_cons in A. destruct A as [A1 A2]. apply fine_spec in A1.
    cbn [app]. rewrite after_cons.
    change (value_after (g :: fs) f b w) with (value_after fs f b (snd (ev g b w))).
    rewrite <- (IH f b _ A2).
    destruct fs; cbn [app eval_body]; destruct (ev g b w) as [v w1]; cbn in A1; now rewrite A1.
Qed.

Lemma body_stop : forall fs pre f b w, first_not fine fs pre f b w ->
  eval_body ev fs b w = (value_after pre f b w, after (pre ++ [f]) b w).
Proof.
  intros fs pre; revert fs. induction pre as [|g pre IH]; intros fs f b w ((post & E) & A & NP); subst fs.
  - cbn [app]. assert (AB : aborted (fst (ev f b w)) = true).
    { destruct (aborted (fst (ev f b w))) eqn:Q; [reflexivity|]. elim NP. now apply fine_spec. }
    unfold ControlSpec.value_after. cbn. destruct post; cbn [eval_body]; destruct (ev f b w) as [v w1]; cbn in AB;
      rewrite ?AB; reflexivity.
  - apply all_pass_cons in A. destruct A as [A1 A2]. apply fine_spec in A1.
    cbn [app]. rewrite after_cons.
    change (value_after (g :: pre) f b w) with (value_after pre f b (snd (ev g b w))).
    rewrite <- (IH (pre ++ f :: post) f b); [|split; [exists post; reflexivity|split; assumption]].
    assert (NE : pre ++ f :: post <> []) by (destruct pre; discriminate).
    destruct (pre ++ f :: post); [congruence|].
    cbn [eval_body]; destruct (ev g b w) as [v w1]; cbn in A1; now rewrite A1.
Qed.

End Proofs.

(* Rounds *)

Section Rounds.
Variable W : Type.

Definition shift {A} (r : nat -> A) (k : nat) : A := r (S k).

Lemma after_rounds_shift : forall (r : nat -> W -> val * W) n w,
  after_rounds r (S n) w = after_rounds (shift r) n (snd (r 0 w)).
Proof.
  induction n; intros w; [reflexivity|].
  change (after_rounds r (S (S n)) w) with (snd (r (S n) (after_rounds r (S n) w))).
  rewrite IHn. reflexivity.
Qed.

Lemma round_value_shift : forall (r : nat -> W -> val * W) n w,
  round_value r (S n) w = round_value (shift r) n (snd (r 0 w)).
Proof. intros; unfold round_value. now rewrite after_rounds_shift. Qed.

Lemma rounds_case : forall (P : val -> Prop) (D : forall v, {P v} + {~ P v}) (r : nat -> W -> val * W) lim w,
  rounds_done r P lim lim w \/ exists n, rounds_stop r P lim n w.
Proof.
  intros P D r lim w.
  assert (X : forall k, k <= lim -> (forall i, i < k -> P (round_value r i w)) \/ exists n, rounds_stop r P lim n w).
  { induction k; intros L; [left; lia|].
    destruct (IHk ltac:(lia)) as [A|A]; [|now right].
    destruct (D (round_value r k w)).
    - left. intros i LI. destruct (Nat.eq_dec i k) as [-> |]; [assumption|apply A; lia].
    - right. exists k. repeat split; auto. }
  destruct (X lim (Nat.le_refl _)) as [A|A]; [left; split; auto|now right].
Qed.

(* A loop with [k] rounds to go whose next round is number [i]. *)
Lemma loop_spec : forall (R : Type) (loop : nat -> (nat -> W -> val * W) -> W -> R * W) (P : val -> Prop)
    (fin : R) (stop : val -> R),
  (forall r w, loop 0 r w = (fin, w)) ->
  (forall k r w, P (fst (r 0 w)) -> loop (S k) r w = loop k (shift r) (snd (r 0 w))) ->
  (forall k r w, ~ P (fst (r 0 w)) -> loop (S k) r w = (stop (fst (r 0 w)), snd (r 0 w))) ->
  (forall lim n r w, rounds_done r P lim n w -> loop lim r w = (fin, after_rounds r n w)) /\
  (forall lim n r w, rounds_stop r P lim n w -> loop lim r w = (stop (round_value r n w), after_rounds r (S n) w)).
Proof.
  intros R loop P fin stop Z GO ST. split.
  - induction lim as [|k IH]; intros n r w [E A]; subst n; [apply Z|].
    rewrite GO by (apply (A 0); lia). rewrite after_rounds_shift.
    apply IH. split; [reflexivity|]. intros i L. rewrite <- round_value_shift. apply A; lia.
  - induction lim as [|k IH]; intros n r w (L & A & NP); [lia|].
    destruct n as [|n].
    + rewrite ST by exact NP. reflexivity.
    + rewrite GO by (apply (A 0); lia). rewrite after_rounds_shift, round_value_shift.
      apply IH. split; [lia|]. rewrite <- round_value_shift. split; [|exact NP].
      intros i LI. rewrite <- round_value_shift. apply A; lia.
Qed.
End Rounds.

(* Loops over forms which return the last value. *)
Lemma last_spec : forall form W (ev : form -> binds -> W -> val * W)
    (loop : list form -> val -> W -> val * W) (P : val -> Prop) (stop : val -> val) b,
  (forall v w, loop [] v w = (v, w)) ->
  (forall f fs v w, P (fst (ev f b w)) -> loop (f :: fs) v w = loop fs (fst (ev f b w)) (snd (ev f b w))) ->
  (forall f fs v w, ~ P (fst (ev f b w)) -> loop (f :: fs) v w = (stop (fst (ev f b w)), snd (ev f b w))) ->
  (forall pre f v w, all_pass ev P (pre ++ [f]) b w ->
     loop (pre ++ [f]) v w = (value_after ev pre f b w, after ev (pre ++ [f]) b w)) /\
  (forall fs pre f v w, first_not ev P fs pre f b w ->
     loop fs v w = (stop (value_after ev pre f b w), after ev (pre ++ [f]) b w)).
Proof.
  intros form W ev loop P stop b Z GO ST. split.
  - induction pre as [|g pre IH]; intros f v w A.
    + cbn [app] in *. apply all_pass_cons in A. rewrite GO by apply A. now rewrite Z.
    + cbn [app] in *. apply all_pass_cons in A. destruct A as [A1 A2].
      rewrite GO by exact A1. rewrite IH by exact A2. reflexivity.
  - intros fs pre; revert fs. induction pre as [|g pre IH]; intros fs f v w ((post & E) & A & NP); subst fs.
    + cbn [app]. rewrite ST by exact NP. reflexivity.
    + apply all_pass_cons in A. destruct A as [A1 A2]. cbn [app].
      rewrite GO by exact A1.
      rewrite (IH (pre ++ f :: post) f) by (split; [exists post; reflexivity|split; assumption]).
      reflexivity.
Qed.

(* All loops over rounds as one. *)
Fixpoint gl {W} (go : val -> bool) (k : nat) (r : nat -> W -> val * W) (w : W) : option val * W :=
  match k with
  | O => (None, w)
  | S k' => let (v, w1) := r 0 w in if go v then gl go k' (shift r) w1 else (Some v, w1)
  end.

Lemma gl_ext : forall W go k (r r' : nat -> W -> val * W) w,
  (forall i x, r i x = r' i x) -> gl go k r w = gl go k r' w.
Proof.
  induction k; intros r r' w E; cbn; [reflexivity|].
  rewrite <- E. destruct (r 0 w) as [v w1]. destruct (go v); [|reflexivity].
  apply IHk. intros i x. apply E.
Qed.

Lemma gl_spec : forall W (go : val -> bool) (P : val -> Prop) (G : forall v, P v <-> go v = true),
  (forall lim n (r : nat -> W -> val * W) w, rounds_done r P lim n w -> gl go lim r w = (None, after_rounds r n w)) /\
  (forall lim n (r : nat -> W -> val * W) w, rounds_stop r P lim n w ->
     gl go lim r w = (Some (round_value r n w), after_rounds r (S n) w)).
Proof.
  intros W go P G. apply (loop_spec W (option val) (gl go) P None (@Some val)).
  - reflexivity.
  - intros k r w H. apply G in H. cbn. destruct (r 0 w) as [v w1]. cbn in H. now rewrite H.
  - intros k r w H. cbn. destruct (r 0 w) as [v w1]. cbn in *. destruct (go v) eqn:E; [|reflexivity].
    elim H. now apply G.
Qed.

Lemma gl_case : forall W (go : val -> bool) (P : val -> Prop) (G : forall v, P v <-> go v = true)
    lim (r : nat -> W -> val * W) w,
  exists n, (rounds_done r P lim n w /\ gl go lim r w = (None, after_rounds r n w)) \/
    (rounds_stop r P lim n w /\ gl go lim r w = (Some (round_value r n w), after_rounds r (S n) w)).
Proof.
  intros W go P G lim r w.
  assert (D : forall v, {P v} + {~ P v}).
  { intros v. destruct (go v) eqn:E; [left; now apply G|right; intros H; apply G in H; congruence]. }
  destruct (gl_spec W go P G) as [A B].
  destruct (rounds_case W P D r lim w) as [H|[n H]].
  - exists lim. left. split; [exact H|now apply A].
  - exists n. right. split; [exact H|now apply B].
Qed.

Definition not_aborted (v : val) := negb (aborted v).
Lemma fine_go : forall v, fine v <-> not_aborted v = true.
Proof. intros v. rewrite fine_spec. unfold not_aborted. destruct (aborted v); cbn; intuition congruence. Qed.

Section Loops.
Variables form W : Type.
Variable ev : form -> binds -> W -> val * W.

Definition over (es : list val) (i : Z) (bd : val -> Z -> binds) (fs : list form) : nat -> W -> val * W :=
  fun k => eval_body ev fs (bd (nth k es Void) (i + Z.of_nat k)%Z).

Lemma over_shift : forall e es i bd fs k x, shift (over (e :: es) i bd fs) k x = over es (i + 1)%Z bd fs k x.
Proof.
  intros. unfold shift, over. cbn [nth]. f_equal. f_equal. lia.
Qed.

Lemma over_0 : forall e es i bd fs w, over (e :: es) i bd fs 0 w = eval_body ev fs (bd e i) w.
Proof. intros. unfold over. cbn. now rewrite Z.add_0_r. Qed.

Lemma dotimes_gl : forall k i var fs w,
  dotimes_loop ev k i var fs w =
  let (o, w1) := gl not_aborted k (fun j => eval_body ev fs [(var, Int (i + Z.of_nat j)%Z)]) w in
  (match o with None => Void | Some v => loop_value v end, w1).
Proof.
  induction k; intros i var fs w; [reflexivity|].
  cbn [dotimes_loop gl]. change (Z.of_nat 0) with 0%Z. rewrite Z.add_0_r.
  destruct (eval_body ev fs [(var, Int i)] w) as [v w1].
  unfold not_aborted at 1. destruct (aborted v) eqn:A; cbn [negb].
  - destruct v; discriminate || reflexivity.
  - rewrite IHk. rewrite (gl_ext W not_aborted k _ (shift (fun j => eval_body ev fs [(var, Int (i + Z.of_nat j)%Z)]))); [reflexivity|].
    intros j x. unfold shift. do 3 f_equal. f_equal. lia.
Qed.

Lemma doseq_gl : forall es i bd fs w,
  doseq_loop ev es i bd fs w =
  let (o, w1) := gl not_aborted (length es) (over es i bd fs) w in
  (match o with None => Void | Some v => loop_value v end, w1).
Proof.
  induction es as [|e es IH]; intros i bd fs w; [reflexivity|].
  cbn [doseq_loop gl length]. rewrite over_0.
  destruct (eval_body ev fs (bd e i) w) as [v w1].
  unfold not_aborted at 1. destruct (aborted v) eqn:A; cbn [negb].
  - destruct v; discriminate || reflexivity.
  - rewrite IH. erewrite gl_ext; [reflexivity|]. intros; symmetry; apply over_shift.
Qed.

Lemma dolist_gl : forall scan i bd fs w,
  dolist_loop ev scan i bd fs w = doseq_loop ev (cars scan) i bd fs w.
Proof.
  induction scan; intros i bd fs w; try reflexivity.
  cbn [dolist_loop cars doseq_loop]. destruct (eval_body ev fs (bd scan1 i) w) as [v w1].
  destruct (aborted v); [reflexivity|]. apply IHscan2.
Qed.

Definition try_go (v : val) := is_empty v.

Lemma tryseq_gl : forall es i bd fs w,
  tryseq_loop ev es i bd fs w =
  let (o, w1) := gl try_go (length es) (over es i bd fs) w in
  (match o with None => Empty | Some Brk => Empty | Some v => v end, w1).
Proof.
  induction es as [|e es IH]; intros i bd fs w; [reflexivity|].
  cbn [tryseq_loop gl length]. rewrite over_0.
  destruct (eval_body ev fs (bd e i) w) as [v w1].
  destruct (try_go v) eqn:A.
  - destruct v; try discriminate. cbn [aborted is_empty]. rewrite IH.
    erewrite gl_ext; [reflexivity|]. intros; symmetry; apply over_shift.
  - destruct v; try discriminate; reflexivity.
Qed.

Definition values (r : nat -> W -> val * W) (n : nat) (w : W) : list val :=
  map (fun k => round_value r k w) (seq 0 n).

Lemma values_shift : forall r n w, values r (S n) w = fst (r 0 w) :: values (shift r) n (snd (r 0 w)).
Proof.
  intros r n w. unfold values. cbn [seq map]. f_equal. rewrite <- seq_shift, map_map.
  apply map_ext. intros k. apply round_value_shift.
Qed.

Lemma after_ext : forall (r r' : nat -> W -> val * W) n w, (forall i x, r i x = r' i x) ->
  after_rounds r n w = after_rounds r' n w.
Proof. induction n; intros w E; cbn; [reflexivity|]. rewrite E, IHn by exact E. reflexivity. Qed.

Lemma values_ext : forall (r r' : nat -> W -> val * W) n w, (forall i x, r i x = r' i x) ->
  values r n w = values r' n w.
Proof.
  intros r r' n w E. apply map_ext. intros k. unfold round_value. now rewrite E, (after_ext r r') by exact E.
Qed.

Lemma forseq_gl : forall es i bd fs acc w,
  forseq_loop ev es i bd fs acc w =
  let (o, w1) := gl not_aborted (length es) (over es i bd fs) w in
  (match o with Some Err => Some Err | _ => None end,
   rev acc ++ match o with
              | None => values (over es i bd fs) (length es) w
              | Some _ => snd (fst (forseq_loop ev es i bd fs [] w))
              end, w1).
Proof.
  induction es as [|e es IH]; intros i bd fs acc w; [cbn; now rewrite app_nil_r|].
  cbn [forseq_loop gl length]. rewrite over_0.
  rewrite values_shift, over_0.
  destruct (eval_body ev fs (bd e i) w) as [v w1]. cbn [fst snd].
  unfold not_aborted at 1. destruct (aborted v) eqn:A; cbn [negb].
  - destruct v; try discriminate; cbn; now rewrite app_nil_r.
  - rewrite (IH (i + 1)%Z bd fs (v :: acc) w1), (IH (i + 1)%Z bd fs [v] w1).
    rewrite (gl_ext W not_aborted (length es) (shift (over (e :: es) i bd fs)) (over es (i + 1)%Z bd fs))
      by (intros; apply over_shift).
    rewrite (values_ext (shift (over (e :: es) i bd fs)) (over es (i + 1)%Z bd fs))
      by (intros; apply over_shift).
    destruct (gl not_aborted (length es) (over es (i + 1)%Z bd fs) w1) as [[o|] w2]; cbn [rev app fst snd];
      rewrite <- app_assoc; reflexivity.
Qed.

Lemma forseq_stop : forall es i bd fs n w,
  rounds_stop (over es i bd fs) fine (length es) n w ->
  snd (fst (forseq_loop ev es i bd fs [] w)) = values (over es i bd fs) n w.
Proof.
  assert (X : forall es i bd fs n acc w,
    rounds_stop (over es i bd fs) fine (length es) n w ->
    snd (fst (forseq_loop ev es i bd fs acc w)) = rev acc ++ values (over es i bd fs) n w).
  { induction es as [|e es IH]; intros i bd fs n acc w (L & A & NP); cbn [length] in L; [lia|].
    cbn [forseq_loop]. pose proof (over_0 e es i bd fs w) as O.
    destruct n as [|n].
    - unfold round_value in NP. cbn in NP. rewrite O in NP.
      destruct (eval_body ev fs (bd e i) w) as [v w1]. cbn in NP.
      destruct (aborted v) eqn:Q; [cbn; now rewrite app_nil_r|]. elim NP. now apply fine_spec.
    - pose proof (A 0 ltac:(lia)) as A0. unfold round_value in A0. cbn in A0. rewrite O in A0.
      rewrite values_shift, O.
      rewrite (values_ext (shift (over (e :: es) i bd fs)) (over es (i + 1)%Z bd fs))
        by (intros; apply over_shift).
      assert (RV : forall j, round_value (over (e :: es) i bd fs) (S j) w =
                 round_value (over es (i + 1)%Z bd fs) j (snd (eval_body ev fs (bd e i) w))).
      { intros j. rewrite round_value_shift, O. unfold round_value.
        rewrite over_shift, (after_ext _ (over es (i + 1)%Z bd fs)) by (intros; apply over_shift). reflexivity. }
      rewrite RV in NP.
      destruct (eval_body ev fs (bd e i) w) as [v w1]. cbn [fst snd] in *.
      apply fine_spec in A0. rewrite A0.
      rewrite (IH (i + 1)%Z bd fs n (v :: acc) w1); [cbn; now rewrite <- app_assoc|].
      refine (conj _ (conj _ NP)); [lia|].
      intros j LJ. rewrite <- RV. apply A; lia. }
  intros. rewrite (X es i bd fs n [] w) by assumption. reflexivity.
Qed.

(* WHILE and UNTIL *)
Lemma run_all_pass : forall fs b w, all_pass ev fine fs b w -> run_all ev fs b w = (None, after ev fs b w).
Proof.
  induction fs as [|f fs IH]; intros b w A; [reflexivity|].
  apply all_pass_cons in A. destruct A as [A1 A2]. apply fine_spec in A1.
  cbn. destruct (ev f b w) as [v w1] eqn:E. cbn in A1, A2. rewrite A1, IH by exact A2.
  reflexivity.
Qed.

Lemma run_all_stop : forall fs pre f b w, first_not ev fine fs pre f b w ->
  run_all ev fs b w = (Some (value_after ev pre f b w), after ev (pre ++ [f]) b w).
Proof.
  intros fs pre; revert fs. induction pre as [|g pre IH]; intros fs f b w ((post & E) & A & NP); subst fs.
  - assert (AB : aborted (fst (ev f b w)) = true).
    { destruct (aborted (fst (ev f b w))) eqn:Q; [reflexivity|]. elim NP. now apply fine_spec. }
    unfold ControlSpec.value_after. cbn. destruct (ev f b w) as [v w1]; cbn in AB; rewrite AB; reflexivity.
  - apply all_pass_cons in A. destruct A as [A1 A2]. apply fine_spec in A1.
    cbn [app run_all]. rewrite after_cons.
    change (value_after ev (g :: pre) f b w) with (value_after ev pre f b (snd (ev g b w))).
    rewrite <- (IH (pre ++ f :: post) f b); [|split; [exists post; reflexivity|split; assumption]].
    destruct (ev g b w) as [v w1]; cbn in A1; now rewrite A1.
Qed.

(* One step of either loop. *)
Fixpoint tl (goes : val -> bool) (n : nat) (test : form) (fs : list form) (b : binds) (w : W) : option (val * W) :=
  match n with
  | O => None
  | S k =>
      let (t, w1) := ev test b w in
      if goes t then
        match run_all ev fs b w1 with
        | (None, w2) => tl goes k test fs b w2
        | (Some v, w2) => Some (loop_value v, w2)
        end
      else Some (match t with Void | Err => Err | _ => Void end, w1)
  end.

Definition while_goes (v : val) : bool :=
  match v with Fals | Empty | Void | Brk | Err => false | _ => true end.

Lemma while_tl : forall n test fs b w, while_evalfn ev n test fs b w = tl while_goes n test fs b w.
Proof.
  induction n; intros test fs b w; [reflexivity|]. cbn [while_evalfn tl]. unfold testeval.
  destruct (ev test b w) as [t w1].
  destruct t; cbn; try reflexivity;
    destruct (run_all ev fs b w1) as [[v|] w2]; auto; destruct v; reflexivity.
Qed.

Lemma until_tl : forall n test fs b w, until_evalfn ev n test fs b w = tl is_fals n test fs b w.
Proof.
  induction n; intros test fs b w; [reflexivity|]. cbn [until_evalfn tl]. unfold testeval.
  destruct (ev test b w) as [t w1].
  destruct t; cbn; try reflexivity;
    destruct (run_all ev fs b w1) as [[v|] w2]; auto; destruct v; reflexivity.
Qed.

Lemma concat_S : forall test (fs : list form) i b w,
  after ev (concat (repeat (test :: fs) (S i))) b w =
  after ev (concat (repeat (test :: fs) i)) b (after ev fs b (snd (ev test b w))).
Proof. intros. cbn [repeat concat]. rewrite after_app, after_cons. reflexivity. Qed.

Lemma tl_spec : forall (go : val -> bool) (goes : val -> Prop) (G : forall v, goes v <-> go v = true)
    test fs b w r,
  (exists n, tl go n test fs b w = Some r) <-> loop_ends ev goes test fs b w r.
Proof.
  intros go goes G test fs b w r.
  assert (NG : forall v, ~ goes v <-> go v = false).
  { intros v. rewrite G. destruct (go v); intuition congruence. }
  split.
  - intros [n E]. revert w E. induction n; intros w E; [discriminate|].
    cbn in E. destruct (ev test b w) as [t w1] eqn:EV.
    destruct (go t) eqn:GT.
    + destruct (pass_or_not form W ev fine fine_dec fs b w1) as [A|(pre & f & A)].
      * rewrite (run_all_pass _ _ _ A) in E. destruct (IHn _ E) as (k & BEF & END).
        assert (AT : forall i, after ev (concat (repeat (test :: fs) (S i))) b w =
                     after ev (concat (repeat (test :: fs) i)) b (after ev fs b w1)).
        { intros i. rewrite concat_S, EV. reflexivity. }
        exists (S k). rewrite AT. split; [|exact END].
        intros i LI. destruct i as [|i].
        -- cbn [repeat concat ControlSpec.after fold_left]. unfold ControlSpec.after. cbn. rewrite EV. cbn. split; [now apply G|exact A].
        -- rewrite AT. apply BEF. lia.
      * rewrite (run_all_stop _ _ _ _ _ A) in E. exists 0. split; [lia|]. right.
        unfold ControlSpec.after at 1 2 3 4 5. cbn. rewrite EV. cbn. split; [now apply G|].
        exists pre, f. split; [exact A|]. inversion E. reflexivity.
    + exists 0. split; [lia|]. left. unfold ControlSpec.after. cbn. rewrite EV. cbn.
      split; [now apply NG|]. inversion E. reflexivity.
  - intros (k & BEF & END). revert w BEF END. induction k; intros w BEF END.
    + exists 1. unfold ControlSpec.after at 1 2 3 4 5 6 7 in END. cbn in END. cbn.
      destruct (ev test b w) as [t w1] eqn:EV. cbn in END.
      destruct END as [[NGO ->]|(GO & pre & f & FN & ->)].
      * apply NG in NGO. now rewrite NGO.
      * apply G in GO. rewrite GO, (run_all_stop _ _ _ _ _ FN). reflexivity.
    + assert (AT : forall i, after ev (concat (repeat (test :: fs) (S i))) b w =
                   after ev (concat (repeat (test :: fs) i)) b (after ev fs b (snd (ev test b w)))).
      { intros i. apply concat_S. }
      destruct (BEF 0 ltac:(lia)) as [G0 A0]. unfold ControlSpec.after in G0, A0. cbn in G0, A0.
      rewrite AT in END.
      destruct (IHk (after ev fs b (snd (ev test b w)))) as [n E].
      * intros i LI. rewrite <- AT. apply BEF. lia.
      * exact END.
      * exists (S n). cbn [tl]. destruct (ev test b w) as [t w1]. cbn in G0, A0. apply G in G0. rewrite G0.
        rewrite (run_all_pass _ _ _ A0). exact E.
Qed.

End Loops.

(* Loops over the elements of an iterator. *)
Section Iter.
Variables form W : Type.
Variable ev : form -> binds -> W -> val * W.
Variable next : W -> val * W.
Variable bd : val -> Z -> binds.
Variable fs : list form.

Definition iter_one (i : Z) (j : nat) (w : W) : val * W :=
  let (e, w1) := next w in eval_body ev fs (bd e (i + Z.of_nat j)) w1.

Lemma iter_one_shift : forall i j x, shift (iter_one i) j x = iter_one (i + 1) j x.
Proof.
  intros. unfold shift, iter_one. destruct (next x) as [e w1].
  replace (i + Z.of_nat (S j))%Z with (i + 1 + Z.of_nat j)%Z by lia. reflexivity.
Qed.

Lemma rounds_ext : forall (r r' : nat -> W -> val * W), (forall i x, r i x = r' i x) ->
  forall n w, after_rounds r n w = after_rounds r' n w /\ round_value r n w = round_value r' n w.
Proof.
  intros r r' E. assert (X : forall n w, after_rounds r n w = after_rounds r' n w).
  { induction n; intros w; [reflexivity|]. cbn. now rewrite IHn, E. }
  intros n w. split; [apply X|]. unfold round_value. now rewrite X, E.
Qed.

Lemma iter_S : forall i k w,
  after_rounds (iter_one i) (S k) w = after_rounds (iter_one (i + 1)) k (snd (iter_one i 0 w)) /\
  round_value (iter_one i) (S k) w = round_value (iter_one (i + 1)) k (snd (iter_one i 0 w)).
Proof.
  intros i k w. rewrite after_rounds_shift, round_value_shift.
  apply rounds_ext. intros. apply iter_one_shift.
Qed.

Lemma doiter_step : forall n i w,
  doiter_loop ev (S n) next i bd fs w =
  match fst (next w) with
  | Eod => Some (Void, snd (next w))
  | _ => if aborted (fst (iter_one i 0 w))
         then Some (loop_value (fst (iter_one i 0 w)), snd (iter_one i 0 w))
         else doiter_loop ev n next (i + 1) bd fs (snd (iter_one i 0 w))
  end.
Proof.
  intros n i w. cbn. unfold iter_one. destruct (next w) as [e w1]. cbn [fst snd Z.of_nat].
  rewrite Z.add_0_r. destruct (eval_body ev fs (bd e i) w1) as [v w2]. cbn [fst snd].
  destruct e; try reflexivity; destruct (aborted v) eqn:Q; try reflexivity; destruct v; try discriminate; reflexivity.
Qed.

Lemma doiter_goes : forall n i w,
  fst (next w) <> Eod -> fine (fst (iter_one i 0 w)) ->
  doiter_loop ev (S n) next i bd fs w = doiter_loop ev n next (i + 1) bd fs (snd (iter_one i 0 w)).
Proof.
  intros n i w NE FV. rewrite doiter_step. apply fine_spec in FV. rewrite FV.
  destruct (fst (next w)); try reflexivity. congruence.
Qed.

Lemma doiter_spec : forall i w res,
  (exists n, doiter_loop ev n next i bd fs w = Some res) <-> iter_ends next (iter_one i) w res.
Proof.
  intros i w res. split.
  - intros [n E]. revert i w E. induction n as [|n IH]; intros i w E; [discriminate|].
    assert (EOD : fst (next w) = Eod \/ fst (next w) <> Eod)
      by (destruct (fst (next w)); try (right; discriminate); now left).
    destruct EOD as [EOD|EOD].
    + rewrite doiter_step, EOD in E. inversion E; subst. exists 0. split; [lia|]. left. split; [exact EOD|reflexivity].
    + destruct (fine_dec (fst (iter_one i 0 w))) as [FV|FV].
      * rewrite (doiter_goes n i w EOD FV) in E. destruct (IH _ _ E) as (k & A & B).
        exists (S k). destruct (iter_S i k w) as [S1 S2].
        split.
        -- intros [|j] L; [split; assumption|]. destruct (iter_S i j w) as [T1 T2]. rewrite T1, T2.
           apply A. lia.
        -- rewrite S1, S2. destruct (iter_S i (S k) w) as [U1 _]. rewrite U1. exact B.
      * exists 0. split; [lia|]. right. split; [exact EOD|]. split; [exact FV|].
        rewrite doiter_step in E.
        assert (AB : aborted (fst (iter_one i 0 w)) = true).
        { destruct (aborted (fst (iter_one i 0 w))) eqn:Q; [reflexivity|]. elim FV. now apply fine_spec. }
        rewrite AB in E. change (round_value (iter_one i) 0 w) with (fst (iter_one i 0 w)).
        change (after_rounds (iter_one i) 1 w) with (snd (iter_one i 0 w)).
        destruct (fst (next w)); congruence.
  - intros (k & A & B). exists (S k). revert i w A B. induction k as [|k IH]; intros i w A B.
    + rewrite doiter_step. destruct B as [[B1 B2]|(B1 & B2 & B3)].
      * cbn [after_rounds] in *. rewrite B1. now subst.
      * change (round_value (iter_one i) 0 w) with (fst (iter_one i 0 w)) in *.
        change (after_rounds (iter_one i) 1 w) with (snd (iter_one i 0 w)) in *.
        assert (AB : aborted (fst (iter_one i 0 w)) = true).
        { destruct (aborted (fst (iter_one i 0 w))) eqn:Q; [reflexivity|]. elim B2. now apply fine_spec. }
        rewrite AB. subst res. cbn [after_rounds] in B1. destruct (fst (next w)); try reflexivity; congruence.
    + destruct (A 0 ltac:(lia)) as [A1 A2].
      rewrite (doiter_goes (S k) i w A1 A2). apply IH.
      * intros j L. destruct (iter_S i j w) as [T1 T2]. rewrite <- T1, <- T2. apply A. lia.
      * destruct (iter_S i k w) as [S1 S2]. destruct (iter_S i (S k) w) as [U1 _].
        rewrite <- S1, <- S2, <- U1. exact B.
Qed.
End Iter.

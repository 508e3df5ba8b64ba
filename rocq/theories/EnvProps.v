(* Lexical environments: capturing one is not observable, and the laws of
   lookup, assignment, definition and import. *)

From Coq Require Import List Arith Bool Lia.
Import ListNotations.
From Verif Require Import EnvModel EnvSpec EnvProofs EnvProofs2 EnvProofs3
  EnvProofs4 EnvProofs5.

(** C111.  Whatever a program does with environments -- entering and leaving
   forms, capturing environments in closures, making modules, exporting and
   importing, assigning, defining, looping -- it sees the same results as with
   plain frames that are never copied.  The program picks each operation from
   everything seen before.  It may use let, lambda and named modules freely; a
   do loop must give every variable an updating expression; let* and letrec
   (d = true) need distinct variables in every form; locals, and use-module
   inside a form, are not used. *)
Theorem C111_capture_unobservable : forall d k prog,
  (forall seen, tame d (prog seen)) ->
  run k cinit [] prog = arun k ainit [] prog.
Proof.
  intros d k prog T. eapply run_ok; eauto. apply R_init_state.
Qed.

Print Assumptions C111_capture_unobservable.

(* A program given as a list. *)
Definition script (ops : list op) (seen : list obs) : op :=
  nth (length seen) ops OPop.

(* (let ((x 1)) (set! f (lambda () x)) (set! x 2) ...): the captured frame
   gets the assignment made through the frame on the stack, and keeps it when
   the form is left. *)
Definition closure_script : list op :=
  [ OModule None; ODefine 0 7 70; OPush (Some 0) [1; 2] [VObj 1; VObj 5];
    OCopy 1; OSet 1 1 2; OLook 2 1; OLook 1 1; OSet 2 2 6; OLexref 1 0 1;
    OPush (Some 2) [3] [VObj 9]; OLook 3 7; OPop; OPop; OLook 2 1; OLook 1 1 ].

Example C111_capture_unobservable_case :
  (forall seen, tame false (script closure_script seen)) /\
  run 15 cinit [] (script closure_script)
  = [ Env 0; Done; Env 1; Env 2; Done; Value (VObj 2); Value (VObj 2); Done;
      Value (VObj 6); Env 3; Value (VObj 70); Done; Done; Value (VObj 2); Bad ].
Proof.
  split; [|reflexivity].
  intros seen. unfold script. generalize (length seen). intros n.
  do 15 (destruct n; [simpl; auto; discriminate|]). destruct n; simpl; auto.
Qed.

(* A letrec whose first value captures the environment. *)
Definition letrec_script : list op :=
  [ OPush None [1; 2] [VUnbound; VUnbound]; OCopy 0; OInit 0 0 11; OInit 0 1 12;
    OLook 1 2; ODo 0 [Some 21; Some 22]; OLook 1 1; OLook 0 1; OLexref 0 0 1 ].

Example C111_letrec_case :
  (forall seen, tame true (script letrec_script seen)) /\
  run 9 cinit [] (script letrec_script)
  = [ Env 0; Env 1; Done; Done; Value (VObj 12); Done; Value (VObj 11);
      Value (VObj 21); Value (VObj 22) ].
Proof.
  split; [|reflexivity].
  intros seen. unfold script. generalize (length seen). intros n.
  destruct n; [simpl; intros _; repeat constructor; simpl; intuition discriminate|].
  do 4 (destruct n; [simpl; auto|]).
  destruct n; [simpl; intuition discriminate|].
  do 3 (destruct n; [simpl; auto|]). destruct n; simpl; auto.
Qed.

(* C112.  The same for every program is false, in four ways. *)

(** (let ((x 1)) (lambda () x) (locals x 2) x): after a capture, locals writes
   the slot on the stack, which nothing reads any more (binders.c:121-149). *)
Theorem C112_locals_refuted : exists ops h s n,
  after ops (OLocal h s n) = Done /\
  after (ops ++ [OLocal h s n]) (OLook h s) <> Value (VObj n) /\
  after (filter (fun o => match o with OCopy _ => false | _ => true end) ops
         ++ [OLocal h s n]) (OLook h s) = Value (VObj n).
Proof.
  exists [OPush None [1] [VObj 1]; OCopy 0], 0, 1, 2.
  split; [reflexivity|]. split; [discriminate|reflexivity].
Qed.

Print Assumptions C112_locals_refuted.

(** (do ((i 0 (+ i 1)) (x 1)) (...) (lambda () x) (set! x 2)): the second turn
   finds x = 1 again; without the lambda it finds 2. *)
Theorem C112_do_refuted : exists ops h s us,
  after ops (ODo h us) = Done /\
  after (ops ++ [ODo h us]) (OLook h s)
  <> after (filter (fun o => match o with OCopy _ => false | _ => true end) ops
            ++ [ODo h us]) (OLook h s).
Proof.
  exists [OPush None [1; 2] [VObj 0; VObj 1]; OCopy 0; OSet 0 2 2], 0, 2,
    [Some 1; None].
  split; [reflexivity|discriminate].
Qed.

Print Assumptions C112_do_refuted.

(** (let* ((x 1) (x (begin (lambda () x) 2))) ...): with the lambda the body
   sees 2, without it 1. *)
Theorem C112_letstar_refuted : exists ops h s i n,
  after ops (OInit h i n) = Done /\
  after (ops ++ [OInit h i n]) (OLook h s)
  <> after (filter (fun o => match o with OCopy _ => false | _ => true end) ops
            ++ [OInit h i n]) (OLook h s).
Proof.
  exists [OPush None [1; 1] [VUnbound; VUnbound]; OInit 0 0 1; OCopy 0], 0, 1, 1, 2.
  split; [reflexivity|discriminate].
Qed.

Print Assumptions C112_letstar_refuted.

(** (let ((x 1)) (lambda () x) (set! x 2) (use-module m) x): use-module in a
   form drops the copy, so x is 1 again, and the import is lost too. *)
Theorem C112_use_module_refuted : exists ops h m s,
  after ops (OUseStatic h m) = Done /\
  after ops (OLook h s) <> after (ops ++ [OUseStatic h m]) (OLook h s).
Proof.
  exists [OModule None; ODefine 0 7 70; OExport 0 7;
          OPush None [1] [VObj 1]; OCopy 1; OSet 1 1 2], 1, 0, 1.
  split; [reflexivity|discriminate].
Qed.

Print Assumptions C112_use_module_refuted.

(** An import made by use-module in a form on the stack is not there afterwards
   (modules.c:595-598). *)
Theorem C112_import_lost_refuted : exists ops h m s v,
  after ops (OLook m s) = Value v /\
  after (ops ++ [OExport m s]) (OUseStatic h m) = Done /\
  after (ops ++ [OExport m s; OUseStatic h m]) (OLook h s) = Error.
Proof.
  exists [OModule None; ODefine 0 7 70; OPush None [1] [VObj 1]], 1, 0, 7, (VObj 70).
  split; [reflexivity|]. split; reflexivity.
Qed.

Print Assumptions C112_import_lost_refuted.

Lemma tame_snoc : forall d ops o, Forall (tame d) ops -> tame d o ->
  Forall (tame d) (ops ++ [o]).
Proof. intros. apply Forall_app. auto. Qed.

Local Hint Extern 2 (tame _ _) => exact I : core.
Local Hint Resolve tame_snoc : core.

(* Go over to the plain machine. *)
Ltac plain d :=
  repeat match goal with
  | |- context [after ?ops ?o] => rewrite (after_ok d ops o) by auto
  | K : context [after ?ops ?o] |- _ => rewrite (after_ok d ops o) in K by auto
  end.

(** C113.  After a successful set!, the environment it was done in has the
   value. *)
Theorem C113_set_then_look : forall d ops h s n, Forall (tame d) ops ->
  after ops (OSet h s n) = Done ->
  after (ops ++ [OSet h s n]) (OLook h s) = Value (VObj n).
Proof.
  intros d ops h s n T H. plain d.
  unfold aafter in *. rewrite aexec_app. pose proof (wf_exec ops) as W.
  set (A := aexec ops) in *. simpl in *.
  destruct (ahandle A h) as [[b a]|] eqn:E; [|discriminate].
  destruct (aset_cases A a s (VObj n)) as [Q|(c & Q & D & HO)]; rewrite Q in *; [discriminate|].
  destruct (write A c s (VObj n)) as [A' o] eqn:Wr. simpl in D, H |- *. subst o.
  destruct (nth_error (frames A) c) as [f0|] eqn:N0.
  2: { unfold write in Wr. rewrite N0 in Wr. discriminate. }
  destruct (write_places A c f0 s _ A' W N0 Wr) as (L & LH & _).
  unfold ahandle in E |- *. rewrite LH, E.
  destruct HO as [HO|[HO ->]].
  - destruct (home_place _ _ _ _ _ HO) as (f & N & P). rewrite N0 in N.
    inversion N; subst f. rewrite L.
    rewrite (look_set A c f0 s n A' W N0 P Wr _ _ HO). auto.
  - rewrite (look_define A a s n A' W Wr). auto.
Qed.

Print Assumptions C113_set_then_look.

(** And after a successful define. *)
Theorem C113_define_then_look : forall d ops h s n, Forall (tame d) ops ->
  after ops (ODefine h s n) = Done ->
  after (ops ++ [ODefine h s n]) (OLook h s) = Value (VObj n).
Proof.
  intros d ops h s n T H. plain d.
  unfold aafter in *. rewrite aexec_app. pose proof (wf_exec ops) as W.
  set (A := aexec ops) in *. simpl in *.
  destruct (ahandle A h) as [[b a]|] eqn:E; [|discriminate].
  destruct (write A a s (VObj n)) as [A' o] eqn:Wr. simpl in H |- *. subst o.
  destruct (nth_error (frames A) a) as [f0|] eqn:N0.
  2: { unfold write in Wr. rewrite N0 in Wr. discriminate. }
  destruct (write_places A a f0 s _ A' W N0 Wr) as (L & LH & _).
  unfold ahandle in E |- *. rewrite LH, E.
  rewrite (look_define A a s n A' W Wr). auto.
Qed.

Print Assumptions C113_define_then_look.

(** Neither touches another variable, in any environment; and one that fails
   touches nothing. *)
Theorem C113_others_kept : forall d ops h s n o g s', Forall (tame d) ops ->
  o = OSet h s n \/ o = ODefine h s n ->
  s' <> s \/ after ops o <> Done ->
  after (ops ++ [o]) (OLook g s') = after ops (OLook g s').
Proof.
  intros d ops h s n o g s' T O C.
  assert (To : tame d o) by (destruct O as [-> | ->]; simpl; auto).
  plain d.
  unfold aafter in *. rewrite aexec_app. pose proof (wf_exec ops) as W.
  set (A := aexec ops) in *.
  assert (K : fst (astep A o) = A \/ exists b, snd (astep A o) = Done /\
            write A b s (VObj n) = (fst (astep A o), Done)).
  { destruct O as [-> | ->]; simpl; destruct (ahandle A h) as [[b a]|]; auto.
    - destruct (aset_cases A a s (VObj n)) as [Q|(c & Q & D & _)]; rewrite Q; auto.
      right. exists c. destruct (write A c s (VObj n)); simpl in *; subst; auto.
    - destruct (write_cases A a s (VObj n)) as [Q|Q].
      + right. exists a. destruct (write A a s (VObj n)); simpl in *; subst; auto.
      + rewrite Q. auto. }
  destruct K as [-> | (b & D & Wr)]; auto.
  destruct C as [C|C]; [|contradiction].
  destruct (nth_error (frames A) b) as [f0|] eqn:N0.
  2: { unfold write in Wr. rewrite N0 in Wr. discriminate. }
  destruct (write_places A b f0 s _ _ W N0 Wr) as (L & LH & _).
  simpl. unfold ahandle. rewrite LH. destruct (nth g (ahs A) None) as [[c a]|]; auto.
  simpl. rewrite L, (look_write_other A b s _ _ s' W Wr C). auto.
Qed.

Print Assumptions C113_others_kept.

(** Entering a form: a variable of the form has its value, unless it has none
   yet; every other one is looked up outside. *)
Theorem C113_push_look : forall d ops h vars vals g s,
  Forall (tame d) (ops ++ [OPush (Some h) vars vals]) ->
  after ops (OPush (Some h) vars vals) = Env g ->
  after (ops ++ [OPush (Some h) vars vals]) (OLook g s)
  = match find (fun p => fst p =? s) (combine vars vals) with
    | Some (_, VObj n) => Value (VObj n)
    | Some (_, VVoid) => Error
    | _ => after ops (OLook h s)
    end.
Proof.
  intros d ops h vars vals g s T H. pose proof T as T'.
  apply Forall_app in T'. destruct T' as [T1 T2]. inversion T2; subst. clear T2 H3.
  plain d.
  unfold aafter in *. rewrite aexec_app. pose proof (wf_exec ops) as W.
  destruct (exec_ok d ops T1) as (al & rk & RR).
  set (A := aexec ops) in *. simpl in *.
  destruct (ahandle A h) as [[b a]|] eqn:E; [|discriminate].
  simpl in H |- *. inversion H; subst g. clear H.
  rewrite ahandle_app, Nat.eqb_refl. rewrite app_length. simpl.
  rewrite Nat.add_comm. simpl.
  rewrite nth_error_app2, Nat.sub_diag by auto. simpl.
  assert (LK : look (length (frames A))
     (mks (frames A ++ [mka (ALex (combine vars vals)) None (Some a)]) (atabs A)
        (length (ahs A) :: astk A) (ahs A ++ [Some (false, length (frames A))])) a s
     = look (length (frames A)) A a s).
  { apply look_app; [apply W|]. eapply w_hs; eauto. }
  assert (FP : forall l, match pos s l with
                         | Some i => option_map snd (nth_error l i)
                         | None => None end
               = option_map snd (find (fun p => fst p =? s) l)).
  { clear. induction l as [|[s' v] l IH]; simpl; auto. rewrite (Nat.eqb_sym s' s).
    destruct (s =? s'); simpl; auto. rewrite <- IH. destruct (pos s l); auto. }
  unfold bound. simpl. rewrite FP.
  destruct (find (fun p => fst p =? s) (combine vars vals)) as [[s' v]|]; simpl.
  - destruct v; auto. rewrite LK. auto.
  - rewrite LK. auto.
Qed.

Print Assumptions C113_push_look.

(** The same by address: position i of the form itself, or further out. *)
Theorem C113_push_lexref : forall d ops h vars vals g u i,
  Forall (tame d) (ops ++ [OPush (Some h) vars vals]) ->
  after ops (OPush (Some h) vars vals) = Env g ->
  after (ops ++ [OPush (Some h) vars vals]) (OLexref g u i)
  = match u with
    | 0 => match nth_error (combine vars vals) i with
           | Some (_, v) => Value v
           | None => Error
           end
    | S u' => after ops (OLexref h u' i)
    end.
Proof.
  intros d ops h vars vals g u i T H. pose proof T as T'.
  apply Forall_app in T'. destruct T' as [T1 T2]. inversion T2; subst. clear T2 H3.
  destruct u; plain d;
  unfold aafter in *; rewrite aexec_app; pose proof (wf_exec ops) as W;
  set (A := aexec ops) in *; simpl in *;
  (destruct (ahandle A h) as [[b a]|] eqn:E; [|discriminate]);
  simpl in H |- *; inversion H; subst g; clear H;
  rewrite ahandle_app, Nat.eqb_refl;
  rewrite nth_error_app2, Nat.sub_diag by auto; simpl.
  - destruct (nth_error (combine vars vals) i) as [[s v]|]; auto.
  - rewrite aref_app; auto.
    + apply W.
    + eapply w_hs; eauto.
Qed.

Print Assumptions C113_push_lexref.

(** Entering and leaving a form changes nothing anywhere. *)
Theorem C113_push_pop : forall d ops h vars vals g h' s,
  Forall (tame d) (ops ++ [OPush h vars vals]) ->
  after ops (OPush h vars vals) = Env g ->
  after (ops ++ [OPush h vars vals] ++ [OPop]) (OLook h' s)
  = after ops (OLook h' s).
Proof.
  intros d ops h vars vals g h' s T H. pose proof T as T'.
  apply Forall_app in T'. destruct T' as [T1 T2]. inversion T2; subst. clear T2 H3.
  rewrite app_assoc.
  plain d.
  unfold aafter in *. rewrite !aexec_app. pose proof (wf_exec ops) as W.
  destruct (exec_ok d ops T1) as (al & rk & RR).
  set (A := aexec ops) in *.
  assert (exists p, fst (astep A (OPush h vars vals)) =
     mks (frames A ++ [mka (ALex (combine vars vals)) None p]) (atabs A)
        (length (ahs A) :: astk A) (ahs A ++ [Some (false, length (frames A))])) as (p & ->).
  { simpl in *. destruct (ahandle_opt A h) as [p|]; [|discriminate]. exists p. auto. }
  clear H. simpl.
  assert (U : upd (ahs A ++ [Some (false, length (frames A))]) (length (ahs A)) None
              = ahs A ++ [None]).
  { generalize (ahs A) as l. induction l; simpl; auto. rewrite IHl. auto. }
  rewrite U, ahandle_app.
  destruct (Nat.eqb_spec h' (length (ahs A))).
  - subst. unfold ahandle. rewrite nth_overflow; auto.
  - change (ahandle (mks (frames A ++ [mka (ALex (combine vars vals)) None p]) (atabs A)
              (astk A) (ahs A)) h') with (ahandle A h').
    destruct (ahandle A h') as [[b a]|] eqn:E; auto. simpl.
    rewrite look_app; [|apply W|eapply w_hs; eauto].
    rewrite (look_fuel d al rk _ A h' b a s _ RR E) by (rewrite app_length; lia). auto.
Qed.

Print Assumptions C113_push_pop.

(** A captured environment looks like the one it was captured from, and the
   capture is not seen through any other pointer. *)
Theorem C113_capture_look : forall d ops h g h' s, Forall (tame d) ops ->
  after ops (OCopy h) = Env g ->
  after (ops ++ [OCopy h]) (OLook g s) = after ops (OLook h s) /\
  (h' <> g -> after (ops ++ [OCopy h]) (OLook h' s) = after ops (OLook h' s)).
Proof.
  intros d ops h g h' s T H.
  plain d.
  unfold aafter in *. rewrite !aexec_app. set (A := aexec ops) in *.
  simpl in *. destruct (ahandle A h) as [[b a]|] eqn:E; [|discriminate].
  simpl in *. inversion H; subst g. clear H. rewrite !ahandle_app, Nat.eqb_refl.
  split.
  - rewrite look_same. auto.
  - intros N. destruct (Nat.eqb_spec h' (length (ahs A))); [contradiction|].
    change (ahandle (mks (frames A) (atabs A) (astk A) (ahs A)) h') with (ahandle A h').
    destruct (ahandle A h') as [[b' a']|]; auto. simpl. rewrite look_same. auto.
Qed.

Print Assumptions C113_capture_look.

Lemma set_alias : forall d ops x y bx by_ a s n, Forall (tame d) ops ->
  ahandle (aexec ops) x = Some (bx, a) -> ahandle (aexec ops) y = Some (by_, a) ->
  after ops (OSet x s n) = Done ->
  after (ops ++ [OSet x s n]) (OLook y s) = Value (VObj n).
Proof.
  intros d ops x y bx by_ a s n T X Y D.
  pose proof (C113_set_then_look d _ x s n T D) as L. plain d.
  unfold aafter in *. rewrite !aexec_app in *. set (A := aexec ops) in *.
  assert (HS : forall h, ahandle (fst (astep A (OSet x s n))) h = ahandle A h).
  { intros h. simpl. rewrite X.
    destruct (aset_cases A a s (VObj n)) as [-> |(c & -> & D' & _)]; auto.
    destruct (write A c s (VObj n)) as [A' o] eqn:Wr. simpl in D'. subst o.
    destruct (nth_error (frames A) c) as [f0|] eqn:N0.
    - destruct (write_places A c f0 s _ A' (wf_exec _) N0 Wr) as (_ & LH & _).
      unfold ahandle. simpl. rewrite LH. auto.
    - unfold write in Wr. rewrite N0 in Wr. discriminate. }
  cbn [astep snd] in L |- *. rewrite HS, ?X in L. rewrite HS, Y, X. exact L.
Qed.

(** The two share their variables: what is assigned through one is read through
   the other. *)
Theorem C113_capture_shared : forall d ops h g s n, Forall (tame d) ops ->
  after ops (OCopy h) = Env g ->
  (after (ops ++ [OCopy h]) (OSet g s n) = Done ->
   after (ops ++ [OCopy h] ++ [OSet g s n]) (OLook h s) = Value (VObj n)) /\
  (after (ops ++ [OCopy h]) (OSet h s n) = Done ->
   after (ops ++ [OCopy h] ++ [OSet h s n]) (OLook g s) = Value (VObj n)).
Proof.
  intros d ops h g s n T H.
  assert (T1 : Forall (tame d) (ops ++ [OCopy h])) by (apply tame_snoc; simpl; auto).
  assert (AH : exists b a, ahandle (aexec (ops ++ [OCopy h])) h = Some (b, a)
                 /\ ahandle (aexec (ops ++ [OCopy h])) g = Some (true, a)).
  { plain d. unfold aafter in H. rewrite aexec_app.
    set (A := aexec ops) in *. simpl in *.
    destruct (ahandle A h) as [[b a]|] eqn:E; [|discriminate].
    simpl in *. inversion H; subst g. rewrite !ahandle_app, Nat.eqb_refl.
    exists b, a. split; auto. destruct (Nat.eqb_spec h (length (ahs A))); auto.
    subst. unfold ahandle in E. rewrite nth_overflow in E; auto. discriminate. }
  destruct AH as (b & a & H1 & H2). rewrite !app_assoc.
  split; intros D; eapply set_alias; eauto.
Qed.

Print Assumptions C113_capture_shared.

(** A captured environment outlives the form it was captured in. *)
Theorem C113_capture_outlives : forall d ops h g s, Forall (tame d) ops ->
  after ops (OCopy h) = Env g ->
  after (ops ++ [OCopy h] ++ [OPop]) (OLook g s) = after ops (OLook h s).
Proof.
  intros d ops h g s T H.
  assert (T1 : Forall (tame d) (ops ++ [OCopy h])) by (apply tame_snoc; simpl; auto).
  destruct (C113_capture_look d ops h g g s T H) as [<- _]. rewrite app_assoc.
  plain d.
  unfold aafter in *. rewrite (aexec_app _ OPop).
  assert (G : exists a, ahandle (aexec (ops ++ [OCopy h])) g = Some (true, a)).
  { rewrite aexec_app. set (A := aexec ops) in *. simpl in *.
    destruct (ahandle A h) as [[b a]|] eqn:E; [|discriminate].
    simpl in *. inversion H; subst g. rewrite !ahandle_app, Nat.eqb_refl. eauto. }
  destruct G as (a & G). destruct (exec_ok d _ T1) as (al & rk & RR).
  pose proof (k_hs _ _ (keeps_step d al rk _ _ OPop RR) g a G) as G'.
  set (A := aexec (ops ++ [OCopy h])) in *. simpl in *.
  destruct (astk A) as [|h' r]; auto. simpl in G' |- *. rewrite G', G. simpl.
  rewrite look_same. auto.
Qed.

Print Assumptions C113_capture_outlives.

(** Importing a module: when the module exports a variable and later defines
   it, whatever happens in between, the importing environment sees the new
   value; and the import cannot be assigned. *)
Theorem C113_import : forall d ops p m e ops2 s ops3 n,
  let before := ops ++ [OImport p m] ++ ops2 in
  let h := before ++ [OExport m s] ++ ops3 in
  Forall (tame d) h ->
  after ops (OImport p m) = Env e ->
  after (h ++ [ODefine m s n]) (OLook e s) = Value (VObj n) /\
  after h (OSet e s n) = Error.
Proof.
  intros d ops p m e ops2 s ops3 n before h T H.
  assert (T0 : Forall (tame d) ops).
  { unfold h, before in T. rewrite <- !app_assoc in T. apply Forall_app in T. tauto. }
  assert (Tb : Forall (tame d) before)
    by (unfold h in T; apply Forall_app in T; tauto).
  plain d.
  unfold aafter in *. rewrite aexec_app.
  (* right after the import *)
  assert (I : exists y t0 t a, t0 <> t /\
     ahandle (aexec (ops ++ [OImport p m])) m = Some (true, y) /\
     ahandle (aexec (ops ++ [OImport p m])) e = Some (true, a) /\
     (exists f, nth_error (frames (aexec (ops ++ [OImport p m]))) y = Some f /\
        abind f = AMod t0 /\ aexp f = Some t) /\
     (exists f, nth_error (frames (aexec (ops ++ [OImport p m]))) a = Some f /\
        abind f = AMod t /\ aexp f = Some t)).
  { rewrite aexec_app. destruct (exec_ok d ops T0) as (al & rk & RR).
    pose proof (wf_exec ops) as W. set (A := aexec ops) in *. simpl in *.
    destruct (ahandle_opt A p) as [par|]; [|discriminate].
    destruct (ahandle A m) as [[b y]|] eqn:M; [|discriminate].
    destruct (amodule A y) eqn:AM; [|discriminate].
    pose proof (module_true _ _ _ _ _ _ _ _ RR M AM) as ->.
    pose proof (w_hs _ W _ _ _ M) as LY. pose proof (wf_aexports A y W LY) as (_ & LF & _ & LH & _).
    unfold amodule in AM. destruct (nth_error (frames A) y) as [f|] eqn:N; [|discriminate].
    destruct (abind f) as [|t0] eqn:B; [discriminate|].
    assert (X : exists f1, nth_error (frames (fst (aexports A y))) y = Some f1 /\
       abind f1 = AMod t0 /\ aexp f1 = Some (snd (aexports A y)) /\
       t0 <> snd (aexports A y)).
    { unfold aexports. rewrite N. destruct (aexp f) as [t|] eqn:Ex; simpl.
      - exists f. repeat split; auto. intros ->. unfold imported in AM.
        rewrite B, Ex, Nat.eqb_refl in AM. discriminate.
      - rewrite upd_nth, Nat.eqb_refl.
        destruct (Nat.ltb_spec y (length (frames A))); [|lia].
        eexists. split; eauto. simpl. repeat split; auto.
        pose proof (w_mod _ W _ _ _ N B). lia. }
    destruct (aexports A y) as [A1 t]. cbn [fst snd] in *.
    destruct X as (f1 & N1 & B1 & E1 & NE). simpl in H |- *.
    inversion H; subst e. exists y, t0, t, (length (frames A1)).
    rewrite !ahandle_app, Nat.eqb_refl. split; auto. split; [|split; [auto|split]].
    - unfold ahandle in *. simpl. rewrite LH. destruct (Nat.eqb_spec m (length (ahs A))); auto.
      subst. rewrite nth_overflow in M; auto. discriminate.
    - exists f1. rewrite nth_error_app1; [auto|]. apply nth_error_Some. congruence.
    - eexists. rewrite nth_error_app2, Nat.sub_diag by auto. simpl. eauto. }
  destruct I as (y & t0 & t & a & NE & M & Ee & (fm & Nm & Bm & Em) & (fe & Ne & Be & Ex)).
  (* until the export *)
  assert (K1 : keeps (aexec (ops ++ [OImport p m])) (aexec before)).
  { unfold before. rewrite app_assoc. apply (keeps_exec d). rewrite <- app_assoc. auto. }
  pose proof (k_hs _ _ K1 _ _ M) as M1. pose proof (k_hs _ _ K1 _ _ Ee) as Ee1.
  destruct (k_mod _ _ K1 _ _ _ Nm Bm) as (fm1 & Nm1 & Bm1 & Q). specialize (Q _ Em).
  destruct (k_mod _ _ K1 _ _ _ Ne Be) as (fe1 & Ne1 & Be1 & Q'). specialize (Q' _ Ex).
  (* the export *)
  assert (P2 : atab (aexec (before ++ [OExport m s])) t s <> None
               /\ t < length (atabs (aexec (before ++ [OExport m s])))).
  { rewrite aexec_app. pose proof (wf_exec before) as W.
    set (A := aexec before) in *. simpl. rewrite M1. unfold amodule. rewrite Nm1, Bm1.
    unfold imported. rewrite Bm1, Q. destruct (Nat.eqb_spec t0 t); [contradiction|]. simpl.
    unfold aexports. rewrite Nm1, Q, Nm1. simpl. rewrite atab_with by (eapply w_exp; eauto).
    rewrite !Nat.eqb_refl, upd_len. split; [|eapply w_exp; eauto].
    destruct (place A (abind fm1) s); discriminate. }
  destruct P2 as [P2 L2].
  assert (K2 : keeps (aexec before) (aexec h)) by (apply (keeps_exec d); auto).
  assert (K3 : keeps (aexec (before ++ [OExport m s])) (aexec h)).
  { unfold h. rewrite app_assoc. apply (keeps_exec d). rewrite <- app_assoc. auto. }
  destruct (k_tab _ _ K3 t s L2 P2) as [L3 P3].
  pose proof (k_hs _ _ K2 _ _ M1) as M2. pose proof (k_hs _ _ K2 _ _ Ee1) as Ee2.
  destruct (k_mod _ _ K2 _ _ _ Nm1 Bm1) as (fm2 & Nm2 & Bm2 & Q2). specialize (Q2 _ Q).
  destruct (k_mod _ _ K2 _ _ _ Ne1 Be1) as (fe2 & Ne2 & Be2 & Q2'). specialize (Q2' _ Q').
  pose proof (wf_exec h) as W. set (A := aexec h) in *.
  assert (LA : a < length (frames A)) by (apply nth_error_Some; congruence).
  split.
  - simpl. rewrite M2. unfold write. rewrite Nm2, Bm2. cbn [fst].
    set (A1 := with_tab A t0 _).
    assert (WE : forall t, aexp fm2 = Some t -> t < length (atabs A1))
      by (intros; unfold A1; simpl; rewrite upd_len; eapply (w_exp _ W y fm2); auto).
    destruct (export_too_frames A1 fm2 s (VObj n)) as (F1 & F2 & _).
    unfold ahandle in *. rewrite F2. simpl ahs. rewrite Ee2. simpl.
    rewrite F1. simpl. destruct (length (frames A)) eqn:LL; [lia|]. simpl.
    rewrite F1. simpl. rewrite Ne2.
    assert (PL : place (export_too A1 fm2 s (VObj n)) (abind fe2) s = Some (VObj n)).
    { rewrite export_too_place, Nat.eqb_refl by auto. rewrite Be2, Q2, Nat.eqb_refl.
      unfold A1. rewrite atab_with by (eapply (w_mod _ W y fm2); auto).
      destruct (Nat.eqb_spec t t0); [congruence|].
      destruct (atab A t s); [auto|contradiction]. }
    rewrite (bound_obj _ _ _ _ PL). auto.
  - simpl. rewrite Ee2. unfold aset.
    assert (HO : home (length (frames A)) A a s = Some a).
    { destruct (length (frames A)) eqn:LL; [lia|]. simpl. rewrite Ne2, Be2. simpl.
      destruct (atab A t s); [auto|contradiction]. }
    rewrite HO, Ne2. unfold imported. rewrite Be2, Q2', Nat.eqb_refl. auto.
Qed.

Print Assumptions C113_import.

(* Two modules, an import, a form around a closure, loops. *)
Definition demo : list op :=
  [ OModule None; ODefine 0 7 70; OModule None; OImport (Some 1) 0;
    OPush (Some 2) [1; 2] [VObj 1; VUnbound]; OCopy 3 ].

Example C113_set_then_look_case :
  Forall (tame false) demo /\ after demo (OSet 3 1 5) = Done /\
  after (demo ++ [OSet 3 1 5]) (OLook 4 1) = Value (VObj 5) /\
  after demo (OSet 3 9 5) = Error /\ after demo (ODefine 1 9 5) = Done.
Proof. split; [repeat constructor; discriminate|repeat split]. Qed.

Example C113_push_case :
  Forall (tame false) (demo ++ [OPush (Some 4) [3; 1] [VObj 8; VUnbound]]) /\
  after demo (OPush (Some 4) [3; 1] [VObj 8; VUnbound]) = Env 5 /\
  after (demo ++ [OPush (Some 4) [3; 1] [VObj 8; VUnbound]]) (OLook 5 1) = Value (VObj 1) /\
  after (demo ++ [OPush (Some 4) [3; 1] [VObj 8; VUnbound]]) (OLook 5 3) = Value (VObj 8) /\
  after (demo ++ [OPush (Some 4) [3; 1] [VObj 8; VUnbound]]) (OLexref 5 1 0) = Value (VObj 1).
Proof. split; [repeat constructor; discriminate|repeat split]. Qed.

Example C113_capture_case :
  after (removelast demo) (OCopy 3) = Env 4 /\
  after (demo ++ [OSet 4 2 6]) (OLook 3 2) = Value (VObj 6) /\
  after (demo ++ [OPop]) (OLook 4 1) = Value (VObj 1) /\
  after (demo ++ [OPop]) (OLook 3 1) = Bad.
Proof. repeat split. Qed.

Example C113_import_case :
  Forall (tame false) (demo ++ [OExport 0 7] ++ [ODefine 1 7 3]) /\
  after (firstn 3 demo) (OImport (Some 1) 0) = Env 2 /\
  after (demo ++ [OExport 0 7; ODefine 0 7 71]) (OLook 2 7) = Value (VObj 71) /\
  after (demo ++ [OExport 0 7; ODefine 0 7 71]) (OLook 3 7) = Value (VObj 71) /\
  after (demo ++ [OExport 0 7]) (OSet 2 7 5) = Error.
Proof. split; [repeat constructor; discriminate|repeat split]. Qed.
